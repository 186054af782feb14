(** * UrdfForm_Proofs: the order of elements and attributes of a URDF document does not matter. *)
From Coq Require Import Bool String List Arith Lia.
From Verif Require Import Num NumFacts Vec VecFacts Motor_Model Joint_Model Body_Model Tree Tree_Proofs Link_Model IK_Model Conf_Model Ztk_Model Urdf_Model Urdf_Spec Urdf_Tree Urdf_Doc.
Import ListNotations.

(** ** Lists *)
Lemma set_nth_comm {A} (l : list A) : forall i j x y, i <> j -> set_nth i x (set_nth j y l) = set_nth j y (set_nth i x l).
Proof. induction l as [|a l IH]; intros [|i] [|j] x y H; cbn; auto; [easy|]. rewrite IH; auto. Qed.
Lemma set_nth_id {A} (l : list A) : forall i x, nth_error l i = Some x -> set_nth i x l = l.
Proof. induction l as [|a l IH]; intros [|i] x H; cbn in *; try discriminate; [now injection H as ->|now rewrite IH]. Qed.

Section Fold.
Context {A B : Type} (f : A -> B -> option A).
Lemma ofold_cons b l a : ofold f (b :: l) a = obind (f a b) (ofold f l).
Proof. change (b :: l) with ([b] ++ l). rewrite ofold_app. reflexivity. Qed.
(** [f] gives the same for two elements in either order. *)
Definition swaps (b c : B) : Prop := forall a, obind (f a b) (fun a => f a c) = obind (f a c) (fun a => f a b).
Lemma ofold_past c l : (forall b, In b l -> swaps b c) -> forall a, obind (ofold f l a) (fun a => f a c) = obind (f a c) (ofold f l).
Proof.
  induction l as [|b l IH]; intros H a; [cbn; now destruct (f a c)|].
  rewrite ofold_cons. pose proof (H b (or_introl eq_refl) a) as S. specialize (IH (fun x Hx => H x (or_intror Hx))).
  transitivity (obind (f a b) (fun a => obind (f a c) (ofold f l))).
  - destruct (f a b) as [a1|]; [|reflexivity]. cbn [obind]. apply IH.
  - transitivity (obind (obind (f a b) (fun a => f a c)) (ofold f l)); [now destruct (f a b)|]. rewrite S. destruct (f a c) as [a1|]; [|reflexivity]. cbn [obind]. now rewrite ofold_cons.
Qed.
(** The elements picked by [p] may come first. *)
Lemma ofold_front (p : B -> bool) l : (forall b c, In b l -> In c l -> p b = false -> p c = true -> swaps b c) ->
  forall a, ofold f l a = ofold f (filter p l ++ filter (fun b => negb (p b)) l) a.
Proof.
  induction l as [|b l IH]; intros H a; [reflexivity|]. specialize (IH (fun x y Hx Hy => H x y (or_intror Hx) (or_intror Hy))). cbn [filter]. destruct (p b) eqn:P; cbn [negb app].
  - rewrite !ofold_cons. destruct (f a b) as [a1|]; [|reflexivity]. cbn [obind]. apply IH.
  - rewrite ofold_cons.
    assert (M : forall m, (forall c, In c m -> In c l /\ p c = true) -> forall a r, ofold f (m ++ b :: r) a = obind (f a b) (ofold f (m ++ r))).
    { clear a IH. induction m as [|c m IHm]; intros Hm a r; [cbn [app]; apply ofold_cons|]. cbn [app]. rewrite ofold_cons.
      destruct (Hm c (or_introl eq_refl)) as [Ic Pc]. pose proof (H b c (or_introl eq_refl) (or_intror Ic) P Pc a) as S.
      transitivity (obind (f a c) (fun a => obind (f a b) (ofold f (m ++ r)))).
      - destruct (f a c) as [a1|]; [|reflexivity]. cbn [obind]. apply IHm. intros x Hx. apply Hm. now right.
      - transitivity (obind (obind (f a c) (fun a => f a b)) (ofold f (m ++ r))); [now destruct (f a c)|]. rewrite <- S. destruct (f a b) as [a1|]; [|reflexivity]. cbn [obind]. now rewrite ofold_cons. }
    rewrite M by (intros c Hc; apply filter_In in Hc; tauto). destruct (f a b) as [a1|]; [|reflexivity]. cbn [obind]. apply IH.
Qed.
Lemma ofold_ignored l : (forall b, In b l -> forall a, f a b = Some a) -> forall a, ofold f l a = Some a.
Proof. induction l as [|b l IH]; intros H a; [reflexivity|]. rewrite ofold_cons, (H b (or_introl eq_refl)). cbn [obind]. apply IH. intros x Hx. apply H. now right. Qed.
End Fold.
Lemma ofold_ext {A B} (f : A -> B -> option A) l m : Forall2 (fun b c => forall a, f a b = f a c) l m -> forall a, ofold f l a = ofold f m a.
Proof. induction 1 as [|b c l m H _ IH]; intros a; [reflexivity|]. rewrite !ofold_cons, H. destruct (f a c) as [a1|]; [|reflexivity]. cbn [obind]. apply IH. Qed.

Section Form.
Context {F : Type} {N : Num F} {E : Ext F} {U : UrdfExt F}.

(** ** Elements sorted by tags *)
Definition tagged (t : string) (l : list (xml F)) : list (xml F) := filter (fun k => String.eqb (x_tag k) t) l.
Fixpoint others (ts : list string) (l : list (xml F)) : list (xml F) :=
  match ts with [] => l | t :: ts => others ts (filter (fun k => negb (String.eqb (x_tag k) t)) l) end.
Lemma tagged_others t u l : t <> u -> tagged t (filter (fun k => negb (String.eqb (x_tag k) u)) l) = tagged t l.
Proof.
  intros H. unfold tagged. induction l as [|k l IH]; [reflexivity|]. cbn [filter]. destruct (String.eqb (x_tag k) u) eqn:Q; cbn [negb filter]; [|now rewrite IH].
  apply String.eqb_eq in Q. replace (String.eqb (x_tag k) t) with false; [exact IH|]. symmetry. apply String.eqb_neq. congruence.
Qed.
Lemma others_in ts : forall l k, In k (others ts l) -> In k l /\ ~ In (x_tag k) ts.
Proof.
  induction ts as [|t ts IH]; intros l k H; cbn [others] in *; [split; [exact H|intros []]|]. destruct (IH _ _ H) as [A B]. apply filter_In in A as [A C]. split; [exact A|].
  intros [D|D]; [|exact (B D)]. rewrite D, String.eqb_refl in C. discriminate.
Qed.
Lemma sorted {A} (f : A -> xml F -> option A) ts : NoDup ts ->
  (forall b c : xml F, x_tag b <> x_tag c -> swaps f b c) -> (forall k, ~ In (x_tag k) ts -> forall a, f a k = Some a) ->
  forall l a, ofold f l a = ofold f (flat_map (fun t => tagged t l) ts) a.
Proof.
  intros ND SW IG.
  assert (G : forall us l a, NoDup us -> ofold f l a = ofold f (flat_map (fun t => tagged t l) us ++ others us l) a).
  { clear ND IG. induction us as [|t us IH]; intros l a ND; [reflexivity|]. inversion ND as [|? ? NI ND']; subst. cbn [flat_map others].
    rewrite (ofold_front f (fun k => String.eqb (x_tag k) t) l).
    - fold (tagged t l). rewrite <- app_assoc, !(ofold_app f (tagged t l)). destruct (ofold f (tagged t l) a) as [a1|]; [|reflexivity]. cbn [obind]. rewrite (IH _ a1 ND').
      f_equal. f_equal. clear -NI. induction us as [|u us IH]; [reflexivity|]. cbn [flat_map]. rewrite tagged_others by (intros ->; apply NI; now left). f_equal. apply IH. intros H. apply NI. now right.
    - intros b c _ _ P Q. apply SW. apply String.eqb_eq in Q. apply String.eqb_neq in P. congruence. }
  intros l a. rewrite (G ts l a ND), ofold_app. destruct (ofold f _ a) as [a1|]; [|reflexivity]. cbn [obind]. apply ofold_ignored.
  intros k Hk. apply IG. apply (others_in ts l k Hk).
Qed.

(** ** Attributes *)
Definition attrs (n : string) (at_ : list (string * aval F)) : list (aval F) := map snd (filter (fun a => String.eqb (fst a) n) at_).
Lemma eval_origin_form t at_ ks f : eval_origin (Elem t at_ ks) f =
  obind (ofold (fun _ a => get_att (av_num a)) (attrs "rpy" at_) (fatt f)) (fun m => Some (Fr (fold_left (fun v a => get_vec (av_num a) v) (attrs "xyz" at_) (fpos f)) m)).
Proof.
  unfold eval_origin. cbn [x_attrs]. revert f. induction at_ as [|[n a] l IH]; intros f; [now destruct f|]. rewrite ofold_cons. unfold attrs. cbn [filter fst snd].
  destruct (String.eqb_spec n "xyz") as [->|X].
  - cbn [String.eqb Ascii.eqb Bool.eqb obind map snd fold_left]. rewrite IH. reflexivity.
  - destruct (String.eqb n "rpy"); cbn [map snd].
    + rewrite ofold_cons. destruct (get_att (av_num a)) as [m|]; [|reflexivity]. cbn [option_map obind]. rewrite IH. reflexivity.
    + cbn [obind]. apply IH.
Qed.
Lemma inertia_num_form t at_ ks n : inertia_num (Elem t at_ ks) n = fold_left (fun _ a => a_num a) (attrs n at_) 0%num.
Proof.
  unfold inertia_num, attrs. cbn [x_attrs]. generalize (0%num : F). induction at_ as [|[m a] l IH]; intros z; [reflexivity|]. cbn [fold_left filter fst snd].
  destruct (String.eqb m n); cbn [map fold_left snd]; apply IH.
Qed.
Lemma last_attr_form t at_ ks n d : last_attr (Elem t at_ ks) n d = fold_left (fun _ a => Some a) (attrs n at_) d.
Proof.
  unfold last_attr, attrs. cbn [x_attrs]. revert d. induction at_ as [|[m a] l IH]; intros z; [reflexivity|]. cbn [fold_left filter fst snd].
  destruct (String.eqb m n); cbn [map fold_left snd]; apply IH.
Qed.
Lemma x_find_form t at_ ks n : x_find (Elem t at_ ks) n = hd_error (attrs n at_).
Proof.
  unfold x_find, attrs. cbn [x_attrs]. induction at_ as [|[m a] l IH]; [reflexivity|]. cbn [find filter fst]. destruct (String.eqb m n); [reflexivity|exact IH].
Qed.

(** ** Elements of links *)
Local Ltac tags b t := let Q := fresh "Q" in destruct (String.eqb (x_tag b) t) eqn:Q.
Local Ltac same H := exfalso; apply H; repeat match goal with Q : String.eqb _ _ = true |- _ => apply String.eqb_eq in Q; rewrite Q; clear Q end; reflexivity.
Local Ltac run_steps := repeat (cbn [option_map obind us_name us_type us_fl ul_name ul_mp ul_shapes ul_joint ul_child mp_mass mp_com mp_inertia]; cbv beta iota;
  match goal with
  | Q : String.eqb (x_tag ?b) ?t = _ |- context [String.eqb (x_tag ?b) ?t] => rewrite Q
  | Q : eval_origin ?k ?f = _ |- context [eval_origin ?k ?f] => rewrite Q
  | Q : eval_inertial ?k ?f = _ |- context [eval_inertial ?k ?f] => rewrite Q
  | Q : eval_visual ?k ?f ?n = _ |- context [eval_visual ?k ?f ?n] => rewrite Q
  | Q : x_find ?k ?f = _ |- context [x_find ?k ?f] => rewrite Q
  | |- context [obind (option_map _ (eval_origin ?k ?f)) _] => destruct (eval_origin k f) eqn:?
  | |- context [obind (option_map _ (x_find ?k ?f)) _] => destruct (x_find k f) eqn:?
  | |- context [obind (option_map _ (eval_inertial ?k ?f)) _] => destruct (eval_inertial k f) eqn:?
  | |- context [obind (option_map _ (eval_visual ?k ?f ?n)) _] => destruct (eval_visual k f n) eqn:?
  | |- context [option_map _ (eval_inertial ?k ?f)] => destruct (eval_inertial k f) eqn:?
  | |- context [option_map _ (eval_visual ?k ?f ?n)] => destruct (eval_visual k f n) eqn:?
  end); try reflexivity.
Definition inertial_step (s : frame F * mp F) (k : xml F) : option (frame F * mp F) :=
  (fun '(f, m) k =>
    if String.eqb (x_tag k) "origin" then option_map (fun f' => (f', m)) (eval_origin k f)
    else if String.eqb (x_tag k) "mass" then option_map (fun a => (f, MP (a_num a) (mp_com m) (mp_inertia m))) (x_find k "value")
    else if String.eqb (x_tag k) "inertia" then Some (f, MP (mp_mass m) (mp_com m) (eval_inertia k))
    else Some (f, m)) s k.
Lemma inertial_swaps b c : x_tag b <> x_tag c -> swaps inertial_step b c.
Proof.
  intros H [f m]. unfold inertial_step. (tags b "origin"%string; [|tags b "mass"%string; [|tags b "inertia"%string]]); (tags c "origin"%string; [|tags c "mass"%string; [|tags c "inertia"%string]]); try (same H); run_steps.
Qed.
Definition visual_step (s : ushape F) (k : xml F) : option (ushape F) :=
  if String.eqb (x_tag k) "origin" then option_map (US (us_name s) (us_type s)) (eval_origin k (us_fl s))
  else if String.eqb (x_tag k) "geometry" then Some (US (us_name s) (eval_geometry k (us_type s)) (us_fl s))
  else Some s.
Lemma visual_swaps b c : x_tag b <> x_tag c -> swaps visual_step b c.
Proof.
  intros H s. unfold visual_step. (tags b "origin"%string; [|tags b "geometry"%string]); (tags c "origin"%string; [|tags c "geometry"%string]); try (same H); run_steps.
Qed.
Lemma link_swaps b c : x_tag b <> x_tag c -> swaps link_step b c.
Proof.
  intros H [ss l]. unfold link_step. (tags b "inertial"%string; [|tags b "visual"%string]); (tags c "inertial"%string; [|tags c "visual"%string]); try (same H); run_steps.
Qed.

(** ** Elements of joints *)
(** What is done to the joint alone. *)
Definition jupd (g : ujoint F -> option (ujoint F)) (j : nat) (i : uinfo F) : option (uinfo F) :=
  obind (nth_error (ui_joints i) j) (fun o => obind (g o) (fun o => Some (UI (ui_name i) (ui_shapes i) (ui_links i) (set_nth j o (ui_joints i))))).
Lemma jupd_jupd g h j i : obind (jupd g j i) (jupd h j) = jupd (fun o => obind (g o) h) j i.
Proof.
  unfold jupd. destruct (nth_error (ui_joints i) j) as [o|] eqn:Q; [|reflexivity]. cbn [obind]. destruct (g o) as [o1|]; [|reflexivity]. cbn [obind ui_joints ui_name ui_shapes ui_links].
  rewrite set_nth_same by (apply nth_error_Some; congruence). cbn [obind]. destruct (h o1) as [o2|]; [|reflexivity]. cbn [obind]. now rewrite set_nth_twice.
Qed.
Lemma jupd_ext g h j i : (forall o, g o = h o) -> jupd g j i = jupd h j i.
Proof. intros H. unfold jupd. destruct (nth_error (ui_joints i) j) as [o|]; [|reflexivity]. cbn [obind]. now rewrite H. Qed.
Definition with_parent p (o : ujoint F) := UJ (uj_name o) (uj_type o) (uj_fl o) (uj_axis o) (uj_damping o) (uj_friction o) (uj_lower o) (uj_upper o) p (uj_child o) (uj_sibl o).
Definition with_child c (o : ujoint F) := UJ (uj_name o) (uj_type o) (uj_fl o) (uj_axis o) (uj_damping o) (uj_friction o) (uj_lower o) (uj_upper o) (uj_parent o) c (uj_sibl o).
Definition with_sibl s (o : ujoint F) := UJ (uj_name o) (uj_type o) (uj_fl o) (uj_axis o) (uj_damping o) (uj_friction o) (uj_lower o) (uj_upper o) (uj_parent o) (uj_child o) s.
(** [g] leaves siblings alone and does not look at them. *)
Definition apart (g : ujoint F -> option (ujoint F)) : Prop := forall o s, g (with_sibl s o) = option_map (with_sibl s) (g o) /\ (forall o', g o = Some o' -> uj_sibl o' = uj_sibl o).
Definition jl_upd (g : ujoint F -> option (ujoint F)) (j : nat) (js : list (ujoint F)) : option (list (ujoint F)) :=
  obind (nth_error js j) (fun o => option_map (fun o => set_nth j o js) (g o)).
Lemma sibl_apart g j s : apart g -> forall n js c, obind (jl_upd g j js) (fun js => add_joint_sibl n js c s) = obind (add_joint_sibl n js c s) (jl_upd g j).
Proof.
  intros A. induction n as [|n IH]; intros js c; cbn [add_joint_sibl]; [now destruct (jl_upd g j js)|].
  destruct (nth_error js c) as [o|] eqn:Qc.
  2:{ cbn [obind]. unfold jl_upd. destruct (nth_error js j) as [o'|] eqn:Qj; [|reflexivity]. cbn [obind]. destruct (g o') as [o2|]; [|reflexivity]. cbn [option_map obind].
      replace (nth_error (set_nth j o2 js) c) with (@None (ujoint F)); [reflexivity|]. symmetry. apply nth_error_None. rewrite set_nth_length. now apply nth_error_None. }
  cbn [obind]. destruct (uj_sibl o) as [c'|] eqn:S.
  - rewrite <- IH. unfold jl_upd. destruct (nth_error js j) as [o'|] eqn:Qj; [|reflexivity]. cbn [obind]. destruct (g o') as [o2|] eqn:G; [|reflexivity]. cbn [option_map obind].
    destruct (Nat.eq_dec j c) as [->|NE].
    + assert (o' = o) by congruence. subst o'. rewrite set_nth_same by (apply nth_error_Some; congruence). cbn [obind]. rewrite (proj2 (A o None) _ G), S. reflexivity.
    + rewrite set_nth_other by exact NE. rewrite Qc. cbn [obind]. now rewrite S.
  - fold (with_sibl (Some s) o). cbn [obind]. unfold jl_upd. destruct (Nat.eq_dec j c) as [->|NE].
    + rewrite Qc. cbn [obind]. rewrite set_nth_same by (apply nth_error_Some; congruence). cbn [obind]. rewrite (proj1 (A o (Some s))). destruct (g o) as [o2|] eqn:G; [|reflexivity]. cbn [option_map obind].
      rewrite set_nth_same by (apply nth_error_Some; congruence). cbn [obind]. rewrite (proj2 (A o None) _ G), S. fold (with_sibl (Some s) o2). now rewrite !set_nth_twice.
    + rewrite set_nth_other by congruence. destruct (nth_error js j) as [o'|] eqn:Qj; [|reflexivity]. cbn [obind]. destruct (g o') as [o2|] eqn:G; [|reflexivity]. cbn [option_map obind].
      rewrite set_nth_other by exact NE. rewrite Qc. cbn [obind]. rewrite S. fold (with_sibl (Some s) o). f_equal. apply set_nth_comm. congruence.
Qed.
Lemma jupd_jl g j i : jupd g j i = option_map (UI (ui_name i) (ui_shapes i) (ui_links i)) (jl_upd g j (ui_joints i)).
Proof. unfold jupd, jl_upd. destruct (nth_error (ui_joints i) j) as [o|]; [|reflexivity]. cbn [obind]. now destruct (g o). Qed.
Lemma jl_upd_len g j js js' : jl_upd g j js = Some js' -> length js' = length js.
Proof. unfold jl_upd. destruct (nth_error js j) as [o|]; [|discriminate]. cbn [obind]. destruct (g o); [|discriminate]. cbn. intros H. injection H as <-. apply set_nth_length. Qed.
Lemma child_apart g j p k i : apart g -> obind (jupd g j i) (fun i => add_link_child i p k) = obind (add_link_child i p k) (jupd g j).
Proof.
  intros A. rewrite jupd_jl. unfold add_link_child. destruct (nth_error (ui_links i) p) as [l|] eqn:Ql.
  2:{ destruct (jl_upd g j (ui_joints i)); [|reflexivity]. cbn [option_map obind ui_links]. now rewrite Ql. }
  cbn [obind]. destruct (ul_child l) as [c|] eqn:C.
  - pose proof (sibl_apart g j k A (S (length (ui_links i) + length (ui_joints i))) (ui_joints i) c) as SB.
    transitivity (option_map (UI (ui_name i) (ui_shapes i) (ui_links i)) (obind (jl_upd g j (ui_joints i)) (fun js => add_joint_sibl (S (length (ui_links i) + length (ui_joints i))) js c k))).
    + destruct (jl_upd g j (ui_joints i)) as [js|] eqn:J; [|reflexivity]. cbn [option_map obind ui_links ui_joints ui_name ui_shapes]. rewrite Ql. cbn [obind]. rewrite C, (jl_upd_len _ _ _ _ J). reflexivity.
    + rewrite SB. destruct (add_joint_sibl _ _ _ _) as [js|]; [|reflexivity]. cbn [option_map obind]. rewrite jupd_jl. reflexivity.
  - cbn [obind]. rewrite jupd_jl. cbn [ui_joints ui_name ui_shapes ui_links]. destruct (jl_upd g j (ui_joints i)) as [js|]; [|reflexivity]. cbn [option_map obind ui_links ui_joints ui_name ui_shapes]. rewrite Ql. cbn [obind]. now rewrite C.
Qed.
Lemma bind_parent_eq i j s : bind_parent i j s = obind (find_link (ui_links i) s 0) (fun p => obind (jupd (fun o => Some (with_parent p o)) j i) (fun i => obind p (fun p => add_link_child i p j))).
Proof. unfold bind_parent, set_joint, jupd. destruct (find_link _ _ _) as [p|]; [|reflexivity]. cbn [obind]. now destruct (nth_error (ui_joints i) j). Qed.
(** The link that is bound as the child. *)
Definition lbind (c : option nat) (j : nat) (i : uinfo F) : option (uinfo F) :=
  match c with
  | None => Some i
  | Some c => option_map (fun l => UI (ui_name i) (ui_shapes i) (set_nth c (UL (ul_name l) (ul_mp l) (ul_shapes l) (Some j) (ul_child l)) (ui_links i)) (ui_joints i)) (nth_error (ui_links i) c)
  end.
Lemma bind_child_eq i j s : bind_child i j s = obind (find_link (ui_links i) s 0) (fun c => obind (jupd (fun o => Some (with_child c o)) j i) (lbind c j)).
Proof. unfold bind_child, set_joint, jupd, lbind. destruct (find_link _ _ _) as [p|]; [|reflexivity]. cbn [obind]. now destruct (nth_error (ui_joints i) j). Qed.
Lemma find_link_names s : forall (a b : list (ulink F)) k, map (@ul_name F) a = map (@ul_name F) b -> find_link a s k = find_link b s k.
Proof.
  induction a as [|x a IH]; intros [|y b] k H; cbn in *; try discriminate; [reflexivity|]. injection H as H1 H2. rewrite H1. destruct (ul_name y) as [n|]; [|reflexivity]. cbn [obind].
  destruct s as [s|]; [|reflexivity]. cbn [obind]. destruct (String.eqb n s); [reflexivity|]. now apply IH.
Qed.
Lemma set_nth_names (ls : list (ulink F)) : forall c l x, nth_error ls c = Some l -> ul_name x = ul_name l -> map (@ul_name F) (set_nth c x ls) = map (@ul_name F) ls.
Proof. induction ls as [|a ls IH]; intros [|c] l x H Q; cbn in *; try discriminate; [injection H as ->; now rewrite Q|]. f_equal. eauto. Qed.
Lemma jupd_links g j i i' : jupd g j i = Some i' -> ui_links i' = ui_links i.
Proof. unfold jupd. destruct (nth_error _ _) as [o|]; [|discriminate]. cbn [obind]. destruct (g o); [|discriminate]. intros H. cbn in H. injection H as <-. reflexivity. Qed.
Lemma lbind_names c j i i' : lbind c j i = Some i' -> map (@ul_name F) (ui_links i') = map (@ul_name F) (ui_links i).
Proof.
  unfold lbind. destruct c as [c|]; [|intros H; now injection H as <-]. destruct (nth_error (ui_links i) c) as [l|] eqn:Q; [|discriminate]. intros H. injection H as <-. cbn. eapply set_nth_names; [exact Q|reflexivity].
Qed.
Lemma alc_names i p j i' : add_link_child i p j = Some i' -> map (@ul_name F) (ui_links i') = map (@ul_name F) (ui_links i).
Proof.
  unfold add_link_child. destruct (nth_error (ui_links i) p) as [l|] eqn:Q; [|discriminate]. cbn [obind]. destruct (ul_child l) as [c|].
  - destruct (add_joint_sibl _ _ _ _); [|discriminate]. intros H. injection H as <-. reflexivity.
  - intros H. injection H as <-. cbn. eapply set_nth_names; [exact Q|reflexivity].
Qed.
Lemma lbind_jupd g c j k i : obind (jupd g j i) (lbind c k) = obind (lbind c k i) (jupd g j).
Proof.
  rewrite jupd_jl. unfold lbind. destruct c as [c|].
  - destruct (nth_error (ui_links i) c) as [l|] eqn:Q.
    + cbn [option_map obind]. rewrite jupd_jl. cbn [ui_joints ui_name ui_shapes ui_links]. destruct (jl_upd g j (ui_joints i)) as [js|]; [|reflexivity]. cbn [option_map obind ui_links ui_joints ui_name ui_shapes]. rewrite Q. reflexivity.
    + destruct (jl_upd g j (ui_joints i)) as [js|]; [|reflexivity]. cbn [option_map obind ui_links]. now rewrite Q.
  - cbn [obind]. rewrite jupd_jl. now destruct (jl_upd g j (ui_joints i)).
Qed.
Lemma lbind_alc c p j i : obind (lbind c j i) (fun i => add_link_child i p j) = obind (add_link_child i p j) (lbind c j).
Proof.
  unfold lbind. destruct c as [c|]. 2:{ cbn [obind]. now destruct (add_link_child i p j). }
  unfold add_link_child. destruct (nth_error (ui_links i) c) as [l|] eqn:Qc.
  2:{ cbn [option_map obind]. destruct (nth_error (ui_links i) p) as [q|] eqn:Qp; [|reflexivity]. cbn [obind]. destruct (ul_child q) as [s|].
      - destruct (add_joint_sibl _ _ _ _); [|reflexivity]. cbn [option_map obind ui_links]. now rewrite Qc.
      - cbn [obind ui_links]. replace (nth_error (set_nth p _ (ui_links i)) c) with (@None (ulink F)); [reflexivity|]. symmetry. apply nth_error_None. rewrite set_nth_length. now apply nth_error_None. }
  cbn [option_map obind ui_links ui_joints ui_name ui_shapes]. rewrite set_nth_length.
  destruct (Nat.eq_dec c p) as [->|NE].
  - rewrite Qc. rewrite set_nth_same by (apply nth_error_Some; congruence). cbn [obind ul_child]. destruct (ul_child l) as [s|] eqn:C.
    + destruct (add_joint_sibl _ _ _ _); [|reflexivity]. cbn [option_map obind ui_links ui_name ui_shapes ui_joints]. rewrite Qc. cbn [option_map]. now rewrite C.
    + cbn [obind ui_links ui_name ui_shapes ui_joints ul_name ul_mp ul_shapes ul_joint]. rewrite set_nth_same by (apply nth_error_Some; congruence). cbn [option_map ul_name ul_mp ul_shapes ul_child]. now rewrite !set_nth_twice.
  - rewrite set_nth_other by exact NE. destruct (nth_error (ui_links i) p) as [q|] eqn:Qp; [|reflexivity]. cbn [obind]. destruct (ul_child q) as [s|].
    + destruct (add_joint_sibl _ _ _ _); [|reflexivity]. cbn [option_map obind ui_links ui_name ui_shapes ui_joints]. rewrite Qc. reflexivity.
    + cbn [obind ui_links ui_name ui_shapes ui_joints]. rewrite set_nth_other by congruence. rewrite Qc. cbn [option_map]. do 2 f_equal. apply set_nth_comm. congruence.
Qed.

(** The elements that change the joint alone. *)
Definition alone (k : xml F) (o : ujoint F) : option (ujoint F) :=
  if String.eqb (x_tag k) "origin" then
    option_map (fun f => UJ (uj_name o) (uj_type o) f (uj_axis o) (uj_damping o) (uj_friction o) (uj_lower o) (uj_upper o) (uj_parent o) (uj_child o) (uj_sibl o)) (eval_origin k (uj_fl o))
  else if String.eqb (x_tag k) "axis" then
    option_map (fun a => UJ (uj_name o) (uj_type o) (uj_fl o) (get_vec (av_num a) (uj_axis o)) (uj_damping o) (uj_friction o) (uj_lower o) (uj_upper o) (uj_parent o) (uj_child o) (uj_sibl o)) (x_find k "xyz")
  else if String.eqb (x_tag k) "dynamic" then
    Some (UJ (uj_name o) (uj_type o) (uj_fl o) (uj_axis o) (last_attr k "damping" (uj_damping o)) (last_attr k "friction" (uj_friction o)) (uj_lower o) (uj_upper o) (uj_parent o) (uj_child o) (uj_sibl o))
  else Some (UJ (uj_name o) (uj_type o) (uj_fl o) (uj_axis o) (uj_damping o) (uj_friction o) (last_attr k "lower" (uj_lower o)) (last_attr k "upper" (uj_upper o)) (uj_parent o) (uj_child o) (uj_sibl o)).
Definition plain (k : xml F) : bool := existsb (String.eqb (x_tag k)) ["origin"; "axis"; "dynamic"; "limit"]%string.
Lemma plain_elem j i k : plain k = true -> j < length (ui_joints i) -> eval_joint_elem j i k = jupd (alone k) j i.
Proof.
  intros P J. destruct (nth_error (ui_joints i) j) as [o|] eqn:Q. 2:{ apply nth_error_None in Q. lia. }
  unfold eval_joint_elem, jupd, alone, set_joint, plain in *. cbn [existsb] in P. rewrite Q. cbn [obind option_map].
  destruct (String.eqb_spec (x_tag k) "origin") as [T|_]; [now destruct (eval_origin k (uj_fl o))|].
  destruct (String.eqb_spec (x_tag k) "parent") as [T|_]; [rewrite T in P; discriminate|]. destruct (String.eqb_spec (x_tag k) "child") as [T|_]; [rewrite T in P; discriminate|].
  destruct (String.eqb_spec (x_tag k) "axis") as [T|_]; [now destruct (x_find k "xyz")|]. destruct (String.eqb_spec (x_tag k) "dynamic") as [T|_]; [reflexivity|].
  destruct (String.eqb_spec (x_tag k) "limit") as [T|_]; [reflexivity|]. discriminate.
Qed.
Lemma alone_comm b c o : x_tag b <> x_tag c -> plain b = true -> plain c = true -> obind (alone b o) (alone c) = obind (alone c o) (alone b).
Proof.
  intros H PB PC. unfold plain in *. cbn [existsb] in *. unfold alone.
  destruct (String.eqb_spec (x_tag b) "origin") as [B1|B1]; [|destruct (String.eqb_spec (x_tag b) "axis") as [B2|B2]; [|destruct (String.eqb_spec (x_tag b) "dynamic") as [B3|B3]; [|destruct (String.eqb_spec (x_tag b) "limit") as [B4|B4]; [|discriminate]]]];
  (destruct (String.eqb_spec (x_tag c) "origin") as [C1|C1]; [|destruct (String.eqb_spec (x_tag c) "axis") as [C2|C2]; [|destruct (String.eqb_spec (x_tag c) "dynamic") as [C3|C3]; [|destruct (String.eqb_spec (x_tag c) "limit") as [C4|C4]; [|discriminate]]]]);
  try congruence;
  repeat (cbn [option_map obind uj_name uj_type uj_fl uj_axis uj_damping uj_friction uj_lower uj_upper uj_parent uj_child uj_sibl];
    match goal with
    | Q : eval_origin ?k ?f = _ |- context [eval_origin ?k ?f] => rewrite Q
    | Q : x_find ?k ?f = _ |- context [x_find ?k ?f] => rewrite Q
    | |- context [option_map _ (eval_origin ?k ?f)] => destruct (eval_origin k f) eqn:?
    | |- context [option_map _ (x_find ?k ?f)] => destruct (x_find k f) eqn:?
    end); reflexivity.
Qed.
Lemma alone_apart k : apart (alone k).
Proof.
  intros o s. unfold alone, with_sibl. cbn [uj_name uj_type uj_fl uj_axis uj_damping uj_friction uj_lower uj_upper uj_parent uj_child uj_sibl].
  destruct (String.eqb (x_tag k) "origin"); [destruct (eval_origin k (uj_fl o))|destruct (String.eqb (x_tag k) "axis"); [destruct (x_find k "xyz")|destruct (String.eqb (x_tag k) "dynamic")]];
  (split; [reflexivity|intros o' Q; try discriminate; injection Q as <-; reflexivity]).
Qed.
Definition parented (k : xml F) := option_map (@av_text F) (x_find k "link").
Lemma obind_comm {A B C} (x : option A) (y : option B) (f : A -> B -> option C) : obind x (fun a => obind y (f a)) = obind y (fun b => obind x (fun a => f a b)).
Proof. destruct x, y; reflexivity. Qed.
Lemma obind_assoc {A B C} (x : option A) (f : A -> option B) (g : B -> option C) : obind (obind x f) g = obind x (fun a => obind (f a) g).
Proof. now destruct x. Qed.
Lemma obind_ext {A B} (x : option A) (f g : A -> option B) : (forall a, x = Some a -> f a = g a) -> obind x f = obind x g.
Proof. destruct x; cbn; auto. Qed.
(** A change of the joint alone and the binding of a parent. *)
Lemma jupd_parent g s j (i : uinfo F) : apart g -> (forall p o, obind (g o) (fun o => Some (with_parent p o)) = g (with_parent p o)) ->
  obind (jupd g j i) (fun i => bind_parent i j s) = obind (bind_parent i j s) (jupd g j).
Proof.
  intros A W. rewrite bind_parent_eq, obind_assoc.
  transitivity (obind (jupd g j i) (fun i1 => obind (find_link (ui_links i) s 0) (fun p => obind (jupd (fun o => Some (with_parent p o)) j i1) (fun i => obind p (fun p => add_link_child i p j))))).
  { apply obind_ext. intros i1 Q. rewrite bind_parent_eq, (jupd_links _ _ _ _ Q). reflexivity. }
  rewrite obind_comm. apply obind_ext. intros p _. rewrite <- obind_assoc, jupd_jupd, obind_assoc.
  transitivity (obind (jupd (fun o => Some (with_parent p o)) j i) (fun i => obind (jupd g j i) (fun i => obind p (fun p => add_link_child i p j)))).
  - rewrite <- obind_assoc, jupd_jupd. f_equal. apply jupd_ext. intros o. apply W.
  - apply obind_ext. intros i1 _. destruct p as [p|]; cbn [obind]; [now apply child_apart|now destruct (jupd g j i1)].
Qed.
Lemma jupd_child g s j (i : uinfo F) : (forall p o, obind (g o) (fun o => Some (with_child p o)) = g (with_child p o)) ->
  obind (jupd g j i) (fun i => bind_child i j s) = obind (bind_child i j s) (jupd g j).
Proof.
  intros W. rewrite bind_child_eq, obind_assoc.
  transitivity (obind (jupd g j i) (fun i1 => obind (find_link (ui_links i) s 0) (fun p => obind (jupd (fun o => Some (with_child p o)) j i1) (lbind p j)))).
  { apply obind_ext. intros i1 Q. rewrite bind_child_eq, (jupd_links _ _ _ _ Q). reflexivity. }
  rewrite obind_comm. apply obind_ext. intros p _. rewrite <- obind_assoc, jupd_jupd, obind_assoc.
  transitivity (obind (jupd (fun o => Some (with_child p o)) j i) (fun i => obind (jupd g j i) (lbind p j))).
  - rewrite <- obind_assoc, jupd_jupd. f_equal. apply jupd_ext. intros o. apply W.
  - apply obind_ext. intros i1 _. apply lbind_jupd.
Qed.
Lemma apart_child c : apart (fun o => Some (with_child c o)).
Proof. intros o s. split; [reflexivity|]. intros o' Q. injection Q as <-. reflexivity. Qed.
Lemma child_parent s t j (i : uinfo F) : obind (bind_child i j s) (fun i => bind_parent i j t) = obind (bind_parent i j t) (fun i => bind_child i j s).
Proof.
  rewrite bind_child_eq, obind_assoc.
  transitivity (obind (find_link (ui_links i) s 0) (fun c => obind (bind_parent i j t) (fun i => obind (jupd (fun o => Some (with_child c o)) j i) (lbind c j)))).
  - apply obind_ext. intros c _. rewrite <- obind_assoc, <- (jupd_parent (fun o => Some (with_child c o)) t j i (apart_child c) (fun p o => eq_refl)), !obind_assoc.
    apply obind_ext. intros i1 _.
    transitivity (obind (find_link (ui_links i1) t 0) (fun p => obind (lbind c j i1) (fun i => obind (jupd (fun o => Some (with_parent p o)) j i) (fun i => obind p (fun p => add_link_child i p j))))).
    + rewrite obind_comm. apply obind_ext. intros i2 Q. rewrite bind_parent_eq. rewrite (find_link_names t _ _ 0 (lbind_names _ _ _ _ Q)). reflexivity.
    + rewrite bind_parent_eq, obind_assoc. apply obind_ext. intros p _. rewrite <- obind_assoc, <- lbind_jupd, !obind_assoc. apply obind_ext. intros i2 _.
      destruct p as [p|]; cbn [obind]; [apply lbind_alc|now destruct (lbind c j i2)].
  - rewrite obind_comm. apply obind_ext. intros i1 Q. rewrite bind_child_eq. f_equal. apply find_link_names. rewrite bind_parent_eq in Q.
    destruct (find_link (ui_links i) t 0) as [p|]; [|discriminate]. cbn [obind] in Q. destruct (jupd _ j i) as [i2|] eqn:Q2; [|discriminate]. cbn [obind] in Q.
    destruct p as [p|]; [|discriminate]. cbn [obind] in Q. rewrite <- (jupd_links _ _ _ _ Q2). symmetry. exact (alc_names _ _ _ _ Q).
Qed.

(** The elements keep the number of joints, so that they may all be looked at as above. *)
Lemma sibl_len n : forall (js js' : list (ujoint F)) c s, add_joint_sibl n js c s = Some js' -> length js' = length js.
Proof.
  induction n as [|n IH]; intros js js' c s H; cbn [add_joint_sibl] in H; [discriminate|]. destruct (nth_error js c) as [o|]; [|discriminate]. cbn [obind] in H.
  destruct (uj_sibl o); [eauto|]. injection H as <-. apply set_nth_length.
Qed.
Lemma jupd_len g j i i' : jupd g j i = Some i' -> length (ui_joints i') = length (ui_joints i).
Proof. rewrite jupd_jl. destruct (jl_upd g j (ui_joints i)) as [js|] eqn:Q; [|discriminate]. intros H. injection H as <-. exact (jl_upd_len _ _ _ _ Q). Qed.
(** An element of a joint, when the joint is not there: nothing but an element that is ignored is evaluated. *)
Definition jelem (j : nat) (i : uinfo F) (k : xml F) : option (uinfo F) :=
  if plain k then jupd (alone k) j i
  else if String.eqb (x_tag k) "parent" then bind_parent i j (parented k)
  else if String.eqb (x_tag k) "child" then bind_child i j (parented k)
  else Some i.
Lemma jelem_eq j i k : eval_joint_elem j i k = jelem j i k.
Proof.
  unfold jelem. destruct (plain k) eqn:P.
  - destruct (lt_dec j (length (ui_joints i))) as [J|J]; [now apply plain_elem|]. assert (Q : nth_error (ui_joints i) j = None) by (apply nth_error_None; lia).
    unfold eval_joint_elem, jupd, set_joint. rewrite Q. cbn [obind option_map]. unfold plain in P. cbn [existsb] in P.
    destruct (String.eqb_spec (x_tag k) "origin") as [T|_]; [reflexivity|]. destruct (String.eqb_spec (x_tag k) "parent") as [T|_]; [rewrite T in P; discriminate|]. destruct (String.eqb_spec (x_tag k) "child") as [T|_]; [rewrite T in P; discriminate|].
    destruct (String.eqb_spec (x_tag k) "axis") as [T|_]; [now destruct (x_find k "xyz")|]. destruct (String.eqb_spec (x_tag k) "dynamic") as [T|_]; [reflexivity|].
    destruct (String.eqb_spec (x_tag k) "limit") as [T|_]; [reflexivity|]. discriminate.
  - unfold eval_joint_elem, plain, parented in *. cbn [existsb] in P.
    destruct (String.eqb (x_tag k) "origin"); [discriminate|]. destruct (String.eqb (x_tag k) "parent"); [reflexivity|]. destruct (String.eqb (x_tag k) "child"); [reflexivity|].
    destruct (String.eqb (x_tag k) "axis"); [discriminate|]. destruct (String.eqb (x_tag k) "dynamic"); [discriminate|]. destruct (String.eqb (x_tag k) "limit"); [discriminate|]. reflexivity.
Qed.
Lemma alone_parent k p o : obind (alone k o) (fun o => Some (with_parent p o)) = alone k (with_parent p o).
Proof.
  unfold alone, with_parent. cbn [uj_name uj_type uj_fl uj_axis uj_damping uj_friction uj_lower uj_upper uj_parent uj_child uj_sibl].
  destruct (String.eqb (x_tag k) "origin"); [now destruct (eval_origin k (uj_fl o))|]. destruct (String.eqb (x_tag k) "axis"); [now destruct (x_find k "xyz")|]. now destruct (String.eqb (x_tag k) "dynamic").
Qed.
Lemma alone_child k p o : obind (alone k o) (fun o => Some (with_child p o)) = alone k (with_child p o).
Proof.
  unfold alone, with_child. cbn [uj_name uj_type uj_fl uj_axis uj_damping uj_friction uj_lower uj_upper uj_parent uj_child uj_sibl].
  destruct (String.eqb (x_tag k) "origin"); [now destruct (eval_origin k (uj_fl o))|]. destruct (String.eqb (x_tag k) "axis"); [now destruct (x_find k "xyz")|]. now destruct (String.eqb (x_tag k) "dynamic").
Qed.
Lemma obind_some {A} (x : option A) : obind x (fun a => Some a) = x. Proof. now destruct x. Qed.
Lemma joint_swaps j b c : x_tag b <> x_tag c -> swaps (eval_joint_elem j) b c.
Proof.
  intros H i. transitivity (obind (jelem j i b) (fun i => jelem j i c)). { rewrite jelem_eq. apply obind_ext. intros. apply jelem_eq. }
  transitivity (obind (jelem j i c) (fun i => jelem j i b)). 2:{ rewrite jelem_eq. apply obind_ext. intros. symmetry. apply jelem_eq. }
  unfold jelem. destruct (plain b) eqn:PB.
  - destruct (plain c) eqn:PC.
    + change (fun i0 => jupd (alone c) j i0) with (jupd (alone c) j). change (fun i0 => jupd (alone b) j i0) with (jupd (alone b) j). rewrite !jupd_jupd. apply jupd_ext. intros o. now apply alone_comm.
    + destruct (String.eqb (x_tag c) "parent"); [apply jupd_parent; [apply alone_apart|apply alone_parent]|]. destruct (String.eqb (x_tag c) "child"); [apply jupd_child; apply alone_child|]. apply obind_some.
  - destruct (plain c) eqn:PC.
    + destruct (String.eqb (x_tag b) "parent"); [symmetry; apply jupd_parent; [apply alone_apart|apply alone_parent]|]. destruct (String.eqb (x_tag b) "child"); [symmetry; apply jupd_child; apply alone_child|]. symmetry. apply obind_some.
    + destruct (String.eqb_spec (x_tag b) "parent") as [B1|B1]; destruct (String.eqb_spec (x_tag c) "parent") as [C1|C1]; try congruence.
      * destruct (String.eqb (x_tag c) "child"); [symmetry; apply child_parent|apply obind_some].
      * destruct (String.eqb (x_tag b) "child"); [apply child_parent|symmetry; apply obind_some].
      * destruct (String.eqb_spec (x_tag b) "child") as [B2|B2]; destruct (String.eqb_spec (x_tag c) "child") as [C2|C2]; try congruence; try apply obind_some; try (symmetry; apply obind_some).
Qed.
End Form.
