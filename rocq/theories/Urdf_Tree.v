(** * Urdf_Tree: the joint lists that the converter builds are the link trees that rkLinkAddChild builds. *)
From Coq Require Import Bool String List Arith Lia Permutation.
From Verif Require Import Num NumFacts Vec VecFacts Motor_Model Joint_Model Body_Model Tree Tree_Proofs Link_Model Link_Spec Link_Proofs Link_Properties Jacobi_Proofs IK_Model Conf_Model Ztk_Model Ztk_Proofs Ztk_Chain Urdf_Model Urdf_Spec.
Import ListNotations.

Lemma nth_app_l {A} (l m : list A) i x : nth_error l i = Some x -> nth_error (l ++ m) i = Some x.
Proof. intros H. rewrite nth_error_app1; [exact H|]. eapply nth_lt; eauto. Qed.
Lemma nth_app_mid {A} (l : list A) x m : nth_error (l ++ x :: m) (length l) = Some x.
Proof. rewrite nth_error_app2, Nat.sub_diag by lia. reflexivity. Qed.
Lemma nth_snoc {A} (l : list A) x i y : nth_error (l ++ [x]) i = Some y -> nth_error l i = Some y \/ (i = length l /\ y = x).
Proof.
  intros H. destruct (Nat.lt_ge_cases i (length l)) as [C|C].
  - rewrite nth_error_app1 in H by exact C. auto.
  - rewrite nth_error_app2 in H by exact C. destruct (i - length l) as [|k] eqn:K; cbn in H; [injection H as <-; right; split; [lia|reflexivity]|]. destruct k; discriminate.
Qed.

Section UT.
Context {F : Type} {N : Num F} {E : Ext F} {U : UrdfExt F}.

Definition jsib (o : ujoint F) (s : option nat) : ujoint F :=
  UJ (uj_name o) (uj_type o) (uj_fl o) (uj_axis o) (uj_damping o) (uj_friction o) (uj_lower o) (uj_upper o) (uj_parent o) (uj_child o) s.
Definition jcore (o : ujoint F) : ujoint F := jsib o None.
Definition lcore (u : ulink F) : option string * mp F * list nat := (ul_name u, ul_mp u, ul_shapes u).

Section Sim.
Context (cj : nat -> nat).
Definition below_ (n : nat) (o : option nat) : Prop := forall j, o = Some j -> j < n.
Record sim (i : uinfo F) (h : list (link F)) : Prop := Sim {
  sm_len : length h = length (ui_links i);
  sm_child : forall k u l, nth_error (ui_links i) k = Some u -> nth_error h k = Some l ->
    l_child l = option_map cj (ul_child u) /\ below_ (length (ui_joints i)) (ul_child u);
  sm_sibl : forall j o, nth_error (ui_joints i) j = Some o -> exists l, nth_error h (cj j) = Some l /\
    l_sibl l = option_map cj (uj_sibl o) /\ below_ (length (ui_joints i)) (uj_sibl o);
  sm_free : forall c l, nth_error h c = Some l -> (forall j, j < length (ui_joints i) -> cj j <> c) -> l_sibl l = None }.

(** The walk to the end of a sibling list. *)
Lemma add_sibl_sim b fuel : forall a (h h' : list (link F)) (js : list (ujoint F)) n,
  (forall j o, nth_error js j = Some o -> exists l, nth_error h (cj j) = Some l /\ l_sibl l = option_map cj (uj_sibl o) /\ below_ n (uj_sibl o)) ->
  n <= length js -> a < n -> add_sibl fuel h (cj a) (cj b) = Some h' -> forall fuel', fuel <= fuel' ->
  exists a' o l, a' < n /\ nth_error js a' = Some o /\ uj_sibl o = None /\ nth_error h (cj a') = Some l /\
    add_joint_sibl fuel' js a b = Some (set_nth a' (jsib o (Some b)) js) /\ h' = lset (cj a') (l_set_sibl (Some (cj b)) l) h.
Proof.
  induction fuel as [|fuel IH]; intros a h h' js n R LN LA H fuel' FU; cbn [add_sibl] in H; [discriminate|].
  destruct fuel' as [|fuel']; [lia|]. destruct (nth_error js a) as [o|] eqn:Ho; [|apply nth_error_None in Ho; lia].
  destruct (R a o Ho) as (l & Hl & S & B). rewrite Hl, S in H. cbn [add_joint_sibl]. rewrite Ho. cbn [obind].
  destruct (uj_sibl o) as [a1|] eqn:Hs; cbn [option_map] in H.
  - destruct (IH a1 h h' js n R LN (B a1 eq_refl) H fuel' ltac:(lia)) as (a' & o' & l' & P). exists a', o', l'. exact P.
  - injection H as <-. exists a, o, l. repeat split; auto.
Qed.

Lemma attach_sim (i : uinfo F) (h h' : list (link F)) (o : ujoint F) p c :
  sim i h -> uj_sibl o = None -> cj (length (ui_joints i)) = c -> (forall j, j < length (ui_joints i) -> cj j <> c) ->
  (forall j k, j <= length (ui_joints i) -> k <= length (ui_joints i) -> cj j = cj k -> j = k) ->
  add_child h p c = Some h' ->
  exists i', add_link_child (UI (ui_name i) (ui_shapes i) (ui_links i) (ui_joints i ++ [o])) p (length (ui_joints i)) = Some i' /\
    ui_name i' = ui_name i /\ ui_shapes i' = ui_shapes i /\ map lcore (ui_links i') = map lcore (ui_links i) /\ map ul_joint (ui_links i') = map ul_joint (ui_links i) /\
    length (ui_joints i') = S (length (ui_joints i)) /\
    (forall j x, nth_error (ui_joints i) j = Some x -> exists x', nth_error (ui_joints i') j = Some x' /\ jcore x' = jcore x) /\
    nth_error (ui_joints i') (length (ui_joints i)) = Some o /\
    sim i' h'.
Proof.
  intros [S1 S2 S3 S4] HS HC FR INJ A. set (b := length (ui_joints i)) in *. unfold add_child in A.
  destruct (nth_error h c) as [lc|] eqn:Hc; [|discriminate]. set (h1 := lset c (l_set_parent (Some p) lc) h) in *.
  assert (L1 : length h1 = length h) by apply set_nth_length.
  assert (R1 : forall k l, nth_error h1 k = Some l -> exists l0, nth_error h k = Some l0 /\ l_child l0 = l_child l /\ l_sibl l0 = l_sibl l).
  { intros k l Hk. apply set_nth_some in Hk as [[<- ->]|[_ Hk]]; eauto. }
  assert (R2 : forall k l0, nth_error h k = Some l0 -> exists l, nth_error h1 k = Some l /\ l_child l = l_child l0 /\ l_sibl l = l_sibl l0).
  { intros k l0 Hk. destruct (Nat.eq_dec c k) as [<-|NE].
    - assert (l0 = lc) by congruence. subst l0. exists (l_set_parent (Some p) lc). split; [apply set_nth_same; eapply nth_lt; eauto|]. auto.
    - exists l0. split; [unfold h1, lset; rewrite set_nth_other by auto; exact Hk|]. auto. }
  assert (FREE : l_sibl lc = None) by (apply (S4 c lc Hc FR)).
  (* the sibling relation with the new joint *)
  assert (S3' : forall j x, nth_error (ui_joints i ++ [o]) j = Some x -> exists l, nth_error h1 (cj j) = Some l /\ l_sibl l = option_map cj (uj_sibl x) /\ below_ b (uj_sibl x)).
  { intros j x Hj. apply nth_snoc in Hj as [Hj|[-> ->]].
    - destruct (S3 j x Hj) as (l & Hl & Q & B). destruct (R2 _ _ Hl) as (l' & Hl' & _ & Q'). exists l'. split; [exact Hl'|]. split; [congruence|exact B].
    - fold b. rewrite HC. destruct (R2 _ _ Hc) as (l' & Hl' & _ & Q'). exists l'. split; [exact Hl'|]. rewrite HS. split; [cbn; congruence|]. intros ? ?; discriminate. }
  destruct (nth_error h1 p) as [l|] eqn:Hp; [|discriminate]. destruct (R1 p l Hp) as (l0 & Hl0 & CL & SL).
  destruct (nth_error (ui_links i) p) as [u|] eqn:Hu; [|apply nth_error_None in Hu; apply nth_lt in Hl0; lia].
  destruct (S2 p u l0 Hu Hl0) as (SC & SB). unfold add_link_child. cbn [ui_links ui_joints ui_name ui_shapes]. rewrite Hu. cbn [obind].
  assert (LNb : length (ui_joints i ++ [o]) = S b) by (rewrite app_length; cbn [length]; lia).
  destruct (ul_child u) as [a|] eqn:UC.
  - rewrite <- CL, SC in A. cbn [option_map] in A.
    assert (A' : add_sibl (length h) h1 (cj a) (cj b) = Some h') by (rewrite HC; exact A).
    destruct (add_sibl_sim b (length h) a h1 h' (ui_joints i ++ [o]) b S3' ltac:(lia) (SB a eq_refl) A' (S (length (ui_links i) + length (ui_joints i ++ [o]))) ltac:(lia))
      as (a' & x & lx & LA & Hx & XS & Hlx & AJ & EH).
    rewrite AJ. cbn [option_map]. eexists. split; [reflexivity|]. cbn [ui_name ui_shapes ui_links ui_joints].
    do 4 (split; [reflexivity|]). split; [rewrite set_nth_length; exact LNb|]. split; [|split].
    + intros j y Hy. destruct (Nat.eq_dec a' j) as [<-|NE].
      * assert (x = y). { rewrite (nth_app_l _ [o] _ _ Hy) in Hx. congruence. } subst y. exists (jsib x (Some b)). split; [apply set_nth_same; lia|reflexivity].
      * exists y. split; [rewrite set_nth_other by auto; apply nth_app_l; exact Hy|reflexivity].
    + rewrite set_nth_other by lia. apply nth_app_mid.
    + subst h'. constructor; cbn [ui_links ui_joints].
      * unfold lset. rewrite set_nth_length. lia.
      * intros k u' l' Hk Hl'. rewrite set_nth_length, LNb.
        assert (G : exists l1, nth_error h1 k = Some l1 /\ l_child l1 = l_child l'). { apply set_nth_some in Hl' as [[<- ->]|[_ Hl']]; eauto. }
        destruct G as (l1 & Hl1 & C1). destruct (R1 k l1 Hl1) as (l2 & Hl2 & C2 & _). destruct (S2 k u' l2 Hk Hl2) as (Q & B). split; [congruence|].
        intros j Hj. specialize (B j Hj). fold b in B. lia.
      * intros j y Hj. rewrite set_nth_length, LNb. apply set_nth_some in Hj as [[<- ->]|[NE Hj]].
        -- eexists. split; [apply set_nth_same; eapply nth_lt; exact Hlx|]. cbn [jsib uj_sibl l_set_sibl l_sibl option_map]. split; [reflexivity|].
           intros j Hj. injection Hj as <-. lia.
        -- destruct (S3' j y Hj) as (l1 & Hl1 & Q & B). exists l1. split; [|split; [exact Q|intros k Hk; specialize (B k Hk); lia]].
           unfold lset. rewrite set_nth_other; [exact Hl1|]. intros EQ. apply NE. apply INJ; [lia| |exact EQ]. apply nth_lt in Hj. lia.
      * intros k l' Hk FRk. rewrite set_nth_length, LNb in FRk. apply set_nth_some in Hk as [[EQ _]|[_ Hk]].
        -- exfalso. apply (FRk a'); [lia|exact EQ].
        -- destruct (R1 k l' Hk) as (l1 & Hl1 & _ & Q). rewrite <- Q. apply (S4 k l1 Hl1). intros j Hj. apply FRk. fold b in Hj. lia.
  - rewrite <- CL, SC in A. cbn [option_map] in A. injection A as <-. eexists. split; [reflexivity|]. cbn [ui_name ui_shapes ui_links ui_joints].
    do 2 (split; [reflexivity|]). split; [apply (map_set_nth lcore p u); auto|]. split; [apply (map_set_nth ul_joint p u); auto|]. split; [exact LNb|].
    split; [intros j y Hy; exists y; split; [apply nth_app_l; exact Hy|reflexivity]|]. split; [apply nth_app_mid|].
    constructor; cbn [ui_links ui_joints].
    * unfold lset. rewrite !set_nth_length. lia.
    * intros k u' l' Hk Hl'. rewrite LNb. apply set_nth_some in Hk as [[<- ->]|[NE Hk]].
      -- unfold lset in Hl'. rewrite set_nth_same in Hl' by (eapply nth_lt; eauto). injection Hl' as <-. cbn [l_set_child l_child ul_child option_map]. rewrite HC.
         split; [reflexivity|]. intros j Hj. injection Hj as <-. lia.
      -- unfold lset in Hl'. rewrite set_nth_other in Hl' by auto. destruct (R1 k l' Hl') as (l2 & Hl2 & C2 & _). destruct (S2 k u' l2 Hk Hl2) as (Q & B). split; [congruence|].
         intros j Hj. specialize (B j Hj). fold b in B. lia.
    * intros j y Hj. rewrite LNb. destruct (S3' j y Hj) as (l1 & Hl1 & Q & B).
      destruct (Nat.eq_dec p (cj j)) as [EQ|NE].
      -- exists (l_set_child (Some c) l). split; [rewrite <- EQ; apply set_nth_same; eapply nth_lt; eauto|]. assert (l1 = l) by congruence. subst l1.
         split; [exact Q|]. intros k Hk. specialize (B k Hk). lia.
      -- exists l1. split; [unfold lset; rewrite set_nth_other by auto; exact Hl1|]. split; [exact Q|]. intros k Hk. specialize (B k Hk). lia.
    * intros k l' Hk FRk. rewrite LNb in FRk.
      assert (G : exists l1, nth_error h1 k = Some l1 /\ l_sibl l1 = l_sibl l'). { apply set_nth_some in Hk as [[<- ->]|[_ Hk]]; eauto. }
      destruct G as (l1 & Hl1 & Q1). destruct (R1 k l1 Hl1) as (l2 & Hl2 & _ & Q2). rewrite <- Q1, <- Q2. apply (S4 k l2 Hl2). intros j Hj. apply FRk. fold b in Hj. lia.
Qed.

Lemma set_joint_sim f (i i' : uinfo F) h j : sim i h -> (forall o, uj_sibl (f o) = uj_sibl o) -> set_joint f j i = Some i' -> sim i' h.
Proof.
  intros [S1 S2 S3 S4] HF H. unfold set_joint in H. destruct (nth_error (ui_joints i) j) as [o|] eqn:Ho; [|discriminate]. injection H as <-.
  constructor; cbn [ui_links ui_joints]; rewrite ?set_nth_length; auto.
  intros k x Hk. apply set_nth_some in Hk as [[<- ->]|[_ Hk]]; [|auto]. rewrite HF. auto.
Qed.
Lemma set_ljoint_sim (i : uinfo F) h k u j : sim i h -> nth_error (ui_links i) k = Some u ->
  sim (UI (ui_name i) (ui_shapes i) (set_nth k (UL (ul_name u) (ul_mp u) (ul_shapes u) j (ul_child u)) (ui_links i)) (ui_joints i)) h.
Proof.
  intros [S1 S2 S3 S4] Hu. constructor; cbn [ui_links ui_joints]; rewrite ?set_nth_length; auto.
  intros k' x l Hk Hl. apply set_nth_some in Hk as [[<- ->]|[_ Hk]]; [exact (S2 _ u l Hu Hl)|exact (S2 _ x l Hk Hl)].
Qed.

(** ** Evaluation of a joint *)
Lemma find_link_names names (ls : list (ulink F)) s k : map ul_name ls = map Some names -> find_link ls (Some s) k = Some (option_map (Nat.add k) (find_name names s)).
Proof.
  revert names k. induction ls as [|l ls IH]; intros [|n names] k H; cbn [map] in H; try discriminate; [reflexivity|].
  injection H as H1 H2. cbn [find_link find_name]. rewrite H1. cbn [obind]. destruct (String.eqb n s); [cbn; now rewrite Nat.add_0_r|].
  rewrite (IH names (S k) H2). destruct (find_name names s); cbn [option_map]; [|reflexivity]. now rewrite Nat.add_succ_r.
Qed.
Lemma set_nth_twice {A} (l : list A) i x y : set_nth i y (set_nth i x l) = set_nth i y l.
Proof. revert i. induction l as [|a l IH]; intros [|i]; cbn [set_nth]; [reflexivity..|]. now rewrite IH. Qed.

(** What the converter keeps of a joint. *)
Definition jkept (d : djoint F) (p c : nat) : ujoint F :=
  UJ (Some (dj_name d)) (Some (utype_name (dj_type d))) (origin_frame (dj_origin d)) (axis_of d) None None
     (match dj_limit d with Some (Some x, _) => Some (num [x]) | _ => None end) (match dj_limit d with Some (_, Some x) => Some (num [x]) | _ => None end)
     (Some p) (Some c) None.
Lemma eval_origin_eq (o : origin F) f : eval_origin (origin_xml o) f = Some (origin_frame o).
Proof. destruct o as [[a b c] r]. reflexivity. Qed.
Definition joint_tail (d : djoint F) : list (xml F) :=
  opt (fun a => Elem "axis" [("xyz"%string, num (v3l a))] []) (dj_axis d) ++
  opt (fun '(lo, up) => Elem "limit" (opt (fun x => ("lower"%string, num [x])) lo ++ opt (fun x => ("upper"%string, num [x])) up) []) (dj_limit d) ++
  opt (fun '(d, f) => Elem "dynamics" [("damping"%string, num [d]); ("friction"%string, num [f])] []) (dj_dynamics d).
Lemma joint_tail_eval b (i : uinfo F) (d : djoint F) p c :
  nth_error (ui_joints i) b = Some (UJ (Some (dj_name d)) (Some (utype_name (dj_type d))) (origin_frame (dj_origin d)) ex None None None None (Some p) (Some c) None) ->
  ofold (eval_joint_elem b) (joint_tail d) i = Some (UI (ui_name i) (ui_shapes i) (ui_links i) (set_nth b (jkept d p c) (ui_joints i))).
Proof.
  intros H. pose proof (nth_lt _ _ _ H) as LB. unfold joint_tail, jkept, axis_of.
  destruct (dj_axis d) as [[ax ay az]|]; destruct (dj_limit d) as [[[lo|] [up|]]|]; destruct (dj_dynamics d) as [[dm fr]|];
    cbn [opt app]; unfold ofold; cbn [fold_left obind];
    unfold eval_joint_elem; cbn [x_tag String.eqb Ascii.eqb Bool.eqb x_find x_attrs find fst snd option_map obind]; unfold set_joint; cbn [ui_joints ui_name ui_shapes ui_links];
    rewrite ?H; cbn [option_map obind ui_joints ui_name ui_shapes ui_links];
    rewrite ?set_nth_same by (rewrite ?set_nth_length; lia); cbn [option_map obind ui_joints ui_name ui_shapes ui_links];
    rewrite ?set_nth_twice, ?set_nth_same by (rewrite ?set_nth_length; lia); cbn [option_map obind ui_joints ui_name ui_shapes ui_links]; rewrite ?set_nth_twice; try reflexivity.
  all: rewrite (set_nth_id _ _ _ H); destruct i; reflexivity.
Qed.

Lemma joint_eval (i : uinfo F) (h h' : list (link F)) names (d : djoint F) p c :
  sim i h -> map ul_name (ui_links i) = map Some names -> find_name names (dj_parent d) = Some p -> find_name names (dj_child d) = Some c -> c < length names ->
  cj (length (ui_joints i)) = c -> (forall j, j < length (ui_joints i) -> cj j <> c) ->
  (forall j k, j <= length (ui_joints i) -> k <= length (ui_joints i) -> cj j = cj k -> j = k) ->
  add_child h p c = Some h' ->
  exists i', eval_joint i (joint_xml d) = Some i' /\
    ui_name i' = ui_name i /\ ui_shapes i' = ui_shapes i /\ map lcore (ui_links i') = map lcore (ui_links i) /\
    (forall k u', nth_error (ui_links i') k = Some u' -> exists u, nth_error (ui_links i) k = Some u /\ ul_joint u' = if Nat.eqb k c then Some (length (ui_joints i)) else ul_joint u) /\
    length (ui_joints i') = S (length (ui_joints i)) /\
    (forall j x, nth_error (ui_joints i) j = Some x -> exists x', nth_error (ui_joints i') j = Some x' /\ jcore x' = jcore x) /\
    nth_error (ui_joints i') (length (ui_joints i)) = Some (jkept d p c) /\ sim i' h'.
Proof.
  intros SM NM FP FC CL HC FR INJ A. set (b := length (ui_joints i)) in *.
  set (o := UJ (Some (dj_name d)) (Some (utype_name (dj_type d))) (origin_frame (dj_origin d)) ex None None None None (Some p) None None).
  destruct (attach_sim i h h' o p c SM eq_refl HC FR INJ A) as (i2 & H2 & N2 & SH2 & LC2 & LJ2 & LN2 & PR2 & NB2 & SM2). fold b in H2, LN2, NB2.
  assert (NM2 : map ul_name (ui_links i2) = map Some names).
  { rewrite <- NM. transitivity (map (fun t => fst (fst t)) (map lcore (ui_links i2))); [rewrite map_map; reflexivity|]. rewrite LC2, map_map. reflexivity. }
  assert (CL2 : c < length (ui_links i2)) by (rewrite <- (map_length ul_name), NM2, map_length; exact CL).
  destruct (nth_error (ui_links i2) c) as [uc|] eqn:Huc; [|apply nth_error_None in Huc; lia].
  set (i3 := UI (ui_name i2) (ui_shapes i2) (set_nth c (UL (ul_name uc) (ul_mp uc) (ul_shapes uc) (Some b) (ul_child uc)) (ui_links i2))
    (set_nth b (UJ (Some (dj_name d)) (Some (utype_name (dj_type d))) (origin_frame (dj_origin d)) ex None None None None (Some p) (Some c) None) (ui_joints i2))).
  assert (NBm : forall x, nth_error (ui_joints i ++ [x]) b = Some x) by (intros x; apply nth_app_mid).
  assert (SBm : forall x y, set_nth b y (ui_joints i ++ [x]) = ui_joints i ++ [y]) by (intros x y; apply set_nth_mid).
  assert (HD : ofold (eval_joint_elem b) [origin_xml (dj_origin d); Elem "parent" [("link"%string, txt (dj_parent d))] []; Elem "child" [("link"%string, txt (dj_child d))] []]
     (UI (ui_name i) (ui_shapes i) (ui_links i) (ui_joints i ++ [UJ (Some (dj_name d)) (Some (utype_name (dj_type d))) fid ex None None None None None None None])) = Some i3).
  { set (J x := UI (ui_name i) (ui_shapes i) (ui_links i) (ui_joints i ++ [x])).
    set (o0 := UJ (Some (dj_name d)) (Some (utype_name (dj_type d))) fid ex None None None None None None None).
    set (o1 := UJ (Some (dj_name d)) (Some (utype_name (dj_type d))) (origin_frame (dj_origin d)) ex None None None None None None None).
    assert (SJ : forall f x, set_joint f b (J x) = Some (J (f x))).
    { intros f x. unfold set_joint, J. cbn [ui_joints ui_name ui_shapes ui_links]. rewrite NBm. cbn [option_map]. rewrite SBm. reflexivity. }
    assert (E1 : eval_joint_elem b (J o0) (origin_xml (dj_origin d)) = Some (J o1)).
    { unfold eval_joint_elem. cbn [x_tag origin_xml String.eqb Ascii.eqb Bool.eqb]. change (ui_joints (J o0)) with (ui_joints i ++ [o0]). rewrite NBm. cbn [obind].
      change (eval_origin (Elem "origin" _ _) ?f) with (eval_origin (origin_xml (dj_origin d)) f). rewrite eval_origin_eq. cbn [obind]. rewrite SJ. reflexivity. }
    assert (E2 : eval_joint_elem b (J o1) (Elem "parent" [("link"%string, txt (dj_parent d))] []) = Some i2).
    { unfold eval_joint_elem. cbn [x_tag String.eqb Ascii.eqb Bool.eqb x_find x_attrs find fst snd option_map txt av_text].
      unfold bind_parent. change (ui_links (J o1)) with (ui_links i). rewrite (find_link_names names _ _ 0 NM), FP. cbn [option_map Nat.add obind]. rewrite SJ. exact H2. }
    assert (E3 : eval_joint_elem b i2 (Elem "child" [("link"%string, txt (dj_child d))] []) = Some i3).
    { unfold eval_joint_elem. cbn [x_tag String.eqb Ascii.eqb Bool.eqb x_find x_attrs find fst snd option_map txt av_text].
      unfold bind_child. rewrite (find_link_names names _ _ 0 NM2), FC. cbn [option_map Nat.add obind].
      unfold set_joint. rewrite NB2. cbn [option_map obind ui_joints ui_name ui_shapes ui_links]. rewrite Huc. reflexivity. }
    unfold ofold. cbn [fold_left obind]. fold (J o0). rewrite E1. cbn [obind]. rewrite E2. cbn [obind]. exact E3. }
  assert (NB3 : nth_error (ui_joints i3) b = Some (UJ (Some (dj_name d)) (Some (utype_name (dj_type d))) (origin_frame (dj_origin d)) ex None None None None (Some p) (Some c) None)).
  { apply set_nth_same. rewrite LN2. lia. }
  exists (UI (ui_name i3) (ui_shapes i3) (ui_links i3) (set_nth b (jkept d p c) (ui_joints i3))).
  split.
  { unfold eval_joint. cbn [x_kids joint_xml]. fold b. fold (joint_tail d). unfold ofold. rewrite fold_left_app.
    cbn [last_attr x_attrs fold_left fst snd String.eqb Ascii.eqb Bool.eqb option_map txt av_text]. unfold ofold in HD. cbn [last_attr x_attrs fold_left fst snd String.eqb Ascii.eqb Bool.eqb option_map txt av_text] in HD.
    change (last_attr (joint_xml d) "name" None) with (Some (txt (F:=F) (dj_name d))). change (last_attr (joint_xml d) "type" None) with (Some (txt (F:=F) (utype_name (dj_type d)))).
    cbn [option_map txt av_text]. rewrite HD. exact (joint_tail_eval b i3 d p c NB3). }
  cbn [ui_name ui_shapes ui_links ui_joints i3]. split; [exact N2|]. split; [exact SH2|].
  split; [rewrite <- LC2; apply (map_set_nth lcore c uc); auto|]. split.
  { intros k u' Hk. assert (G : exists u2, nth_error (ui_links i2) k = Some u2 /\ ul_joint u' = if Nat.eqb k c then Some b else ul_joint u2).
    { apply set_nth_some in Hk as [[<- ->]|[NE Hk]].
      - exists uc. rewrite Nat.eqb_refl. auto.
      - exists u'. rewrite (proj2 (Nat.eqb_neq k c)) by auto. auto. }
    destruct G as (u2 & Hu2 & G). pose proof (f_equal (fun m => nth_error m k) LJ2) as G2. cbv beta in G2. rewrite !nth_error_map, Hu2 in G2. cbn [option_map] in G2.
    destruct (nth_error (ui_links i) k) as [u|]; [|discriminate]. injection G2 as G2. exists u. split; [reflexivity|]. rewrite G, G2. reflexivity. }
  split; [rewrite !set_nth_length; exact LN2|]. split; [|split].
  - intros j x Hj. pose proof (nth_lt _ _ _ Hj) as Hlt. fold b in Hlt. rewrite !set_nth_other by lia. auto.
  - apply set_nth_same. rewrite set_nth_length, LN2. lia.
  - set (f3 := fun o : ujoint F => jsib (UJ (Some (dj_name d)) (Some (utype_name (dj_type d))) (origin_frame (dj_origin d)) ex None None None None (Some p) (Some c) None) (uj_sibl o)).
    set (f4 := fun o : ujoint F => jsib (jkept d p c) (uj_sibl o)).
    assert (SM3 : sim (UI (ui_name i2) (ui_shapes i2) (ui_links i2) (set_nth b (f3 o) (ui_joints i2))) h').
    { apply (set_joint_sim f3 i2 _ h' b SM2); [reflexivity|]. unfold set_joint. rewrite NB2. reflexivity. }
    pose proof (set_ljoint_sim _ _ c uc (Some b) SM3 Huc) as SM4. cbn [ui_name ui_shapes ui_links ui_joints] in SM4.
    apply (set_joint_sim f4 _ _ h' b SM4); [reflexivity|]. unfold set_joint. cbn [ui_name ui_shapes ui_links ui_joints]. rewrite set_nth_same by (rewrite LN2; lia). reflexivity.
Qed.
End Sim.
End UT.
