(** * Jacobi_Proofs: the Jacobian matrices against the velocities of the update recursion. *)
From Coq Require Import List Arith Field Lia Permutation.
From Verif Require Import Num NumFacts Vec VecFacts Motor_Model Joint_Model Joint_Spec Joint_Proofs Body_Model
  Tree Tree_Proofs Link_Model Link_Spec Link_Proofs Chain_Proofs Link_Properties Chain_Properties Kin_Spec Kin_Proofs Jacobi_Model.
Import ListNotations.
Local Open Scope nat_scope.

Ltac vgen := repeat match goal with
  | |- context [jmul ?a ?b] => generalize (jmul a b)
  | |- context [axis_sum ?a ?b] => generalize (axis_sum a b)
  | |- context [v3sum ?a] => generalize (v3sum a)
  end.
Ltac vring := vgen; intros; vdestruct; vunfold; vsplit; ring.


Section Cols.
Context {F : Type} {N : Num F} {L : NumLaws F N} {E : Ext F}.
Add Field FField : num_field.
Local Open Scope num_scope.
Notation lk := (link F).
Notation jac := (list (vec3 F)).
Lemma jmul_upd (m : jac) : forall k v old new q, nth_error m k = Some old -> nth_error v k = Some q ->
  jmul (set_nth k new m) v = v3add (jmul m v) (v3scale q (v3sub new old)).
Proof.
  induction m as [|c m IH]; intros [|k] [|q0 v] old new q Hm Hv; cbn in Hm, Hv; try discriminate.
  - injection Hm as ->. injection Hv as ->. cbn [set_nth jmul]. vring.
  - cbn [set_nth jmul]. rewrite (IH k v old new q Hm Hv). vring.
Qed.
Lemma jmul_zero (m : jac) v : jmul (jzero m) v = v3zero.
Proof. revert v. induction m as [|c m IH]; intros [|q v]; cbn [jzero map jmul]; auto. change (map _ m) with (jzero m). rewrite IH. vring. Qed.
Lemma jzero_length (m : jac) : length (jzero m) = length m. Proof. apply map_length. Qed.
Lemma jzero_nth (m : jac) k c : nth_error (jzero m) k = Some c -> c = v3zero.
Proof. unfold jzero. rewrite nth_error_map. destruct (nth_error m k); cbn; congruence. Qed.

(** Linear maps applied to axis sums. *)
Definition lin3 (g : vec3 F -> vec3 F) : Prop :=
  (forall a b, g (v3add a b) = v3add (g a) (g b)) /\ (forall k a, g (v3scale k a) = v3scale k (g a)).
Lemma lin3_zero g : lin3 g -> g v3zero = v3zero.
Proof.
  intros [_ S]. assert (Z : forall a : vec3 F, v3scale 0 a = v3zero) by vring.
  rewrite <- (Z v3zero) at 1. rewrite S. apply Z.
Qed.
Lemma lin3_id : lin3 (fun s => s). Proof. split; auto. Qed.
Lemma lin3_opp : lin3 v3opp. Proof. split; vring. Qed.
Lemma lin3_scale k : lin3 (v3scale k). Proof. split; vring. Qed.
Lemma lin3_m3v m : lin3 (m3v m). Proof. split; vring. Qed.
Lemma lin3_cross a : lin3 (v3cross a). Proof. split; vring. Qed.
Lemma lin3_comp f g : lin3 f -> lin3 g -> lin3 (fun x => f (g x)).
Proof. intros [A B] [C D]. split; intros; [rewrite C, A | rewrite D, B]; reflexivity. Qed.
Lemma axis_sum_lin g ax q : lin3 g -> axis_sum (map (option_map g) ax) q = g (axis_sum ax q).
Proof.
  intros G. revert q. induction ax as [|a ax IH]; intros [|k q]; cbn [map axis_sum]; try (symmetry; now apply lin3_zero).
  rewrite IH. destruct G as [A S]. rewrite A. f_equal. destruct a as [s|]; cbn [option_map]; [now rewrite S|]. symmetry. now apply lin3_zero.
Qed.
Lemma v3sum_map_add {A} (f g : A -> vec3 F) t : v3sum (map (fun k => v3add (f k) (g k)) t) = v3add (v3sum (map f t)) (v3sum (map g t)).
Proof.
  induction t as [|k t IH]; unfold v3sum; cbn [map fold_right]; [vring|]. unfold v3sum in IH. rewrite IH.
  match goal with |- v3add (v3add ?a ?b) (v3add ?x ?y) = _ => generalize a b x y end. vring.
Qed.
Lemma lin3_sum g l : lin3 g -> g (v3sum l) = v3sum (map g l).
Proof.
  intros G. induction l as [|a l IH]; unfold v3sum; cbn [fold_right map]; [now apply lin3_zero|].
  rewrite (proj1 G). f_equal. exact IH.
Qed.

Lemma skipn_nth {A} (l : list A) k q : nth_error l k = Some q -> skipn k l = q :: skipn (S k) l.
Proof. revert k. induction l as [|a l IH]; intros [|k] H; cbn in H; try discriminate; [injection H as ->; reflexivity|]. exact (IH k H). Qed.

Lemma col_upd_spec op g (Pz : vec3 F -> Prop) k s (m : jac) (v : list F) :
  (forall old s, Pz old -> op old s = v3add old (g s)) -> (k < length m)%nat -> length v = length m ->
  (forall c, nth_error m k = Some c -> Pz c) ->
  exists m' q, col_upd op (Some k) s m = Some m' /\ nth_error v k = Some q /\ length m' = length m /\
    (forall k', k' <> k -> nth_error m' k' = nth_error m k') /\
    jmul m' v = v3add (jmul m v) (v3scale q (g s)).
Proof.
  intros HG LT LV HP. unfold col_upd, obind.
  destruct (nth_error m k) as [old|] eqn:Ho; [|apply nth_error_None in Ho; lia].
  destruct (nth_error v k) as [q|] eqn:Hq; [|apply nth_error_None in Hq; lia].
  exists (set_nth k (op old s) m), q. split; [reflexivity|]. split; [reflexivity|]. split; [apply set_nth_length|].
  split; [intros; now apply set_nth_other; auto|]. rewrite (jmul_upd m k v old _ q Ho Hq), (HG old s (HP _ eq_refl)). vring.
Qed.
Lemma cols_spec op g (Pz : vec3 F -> Prop) axes : (forall old s, Pz old -> op old s = v3add old (g s)) ->
  forall i o (m : jac) v, (o + i + length axes <= length m)%nat -> length v = length m ->
  (forall k, (o + i <= k < o + i + length axes)%nat -> forall c, nth_error m k = Some c -> Pz c) ->
  exists m', cols op (Some o) i axes m = Some m' /\ length m' = length m /\
    (forall k, ~ (o + i <= k < o + i + length axes)%nat -> nth_error m' k = nth_error m k) /\
    jmul m' v = v3add (jmul m v) (axis_sum (map (option_map g) axes) (skipn (o + i) v)).
Proof.
  intros HG. induction axes as [|a axes IH]; intros i o m v LE LV HP.
  - exists m. cbn. repeat split; auto. vring.
  - cbn [length] in *. destruct (nth_error v (o + i)) as [q|] eqn:Hq; [|apply nth_error_None in Hq; lia].
    destruct a as [s|]; cbn [cols col_index map option_map].
    + destruct (col_upd_spec op g Pz (o + i) s m v HG) as (m1 & q' & A & Hq' & B & C & D); try lia; auto.
      { intros c Hc. eapply HP; eauto. lia. }
      assert (q' = q) by congruence. subst q'. cbn [obind]. unfold obind. rewrite A.
      destruct (IH (S i) o m1 v) as (m' & A' & B' & C' & D'); try lia.
      { intros k Hk c. rewrite C by lia. apply HP. lia. }
      exists m'. split; [exact A'|]. split; [lia|]. split.
      { intros k Hk. rewrite C' by lia. apply C. lia. }
      rewrite D', D, (skipn_nth v _ q Hq). cbn [axis_sum]. replace (o + S i)%nat with (S (o + i)) by lia. vring.
    + destruct (IH (S i) o m v) as (m' & A' & B' & C' & D'); try lia.
      { intros k Hk c. apply HP. lia. }
      exists m'. split; [exact A'|]. split; [lia|]. split.
      { intros k Hk. apply C'. lia. }
      rewrite D', (skipn_nth v _ q Hq). cbn [axis_sum]. replace (o + S i)%nat with (S (o + i)) by lia. vring.
Qed.
Lemma am_cols_spec iw mass dp aa : forall la i o (m : jac) v, length la = length aa -> (o + i + length aa <= length m)%nat -> length v = length m ->
  exists m', am_cols iw mass dp (Some o) i aa la m = Some m' /\ length m' = length m /\
    jmul m' v = v3add (jmul m v) (v3add (axis_sum (map (option_map (m3v iw)) aa) (skipn (o + i) v))
                                        (axis_sum (map (option_map (fun s => v3scale mass (v3cross dp s))) la) (skipn (o + i) v))).
Proof.
  induction aa as [|a aa IH]; intros [|b la] i o m v LL LE LV; cbn in LL; try discriminate.
  - exists m. cbn. repeat split; auto. vring.
  - cbn [length] in *. destruct (nth_error v (o + i)) as [q|] eqn:Hq; [|apply nth_error_None in Hq; lia].
    cbn [am_cols col_index].
    assert (HA : exists m1, match a with Some s => col_upd op_add (Some (o + i)%nat) (m3v iw s) m | None => Some m end = Some m1 /\ length m1 = length m /\
       jmul m1 v = v3add (jmul m v) (match option_map (m3v iw) a with Some s => v3scale q s | None => v3zero end)).
    { destruct a as [s|]; [|exists m; repeat split; auto; cbn; vring].
      destruct (col_upd_spec op_add (fun s => s) (fun _ => True) (o + i) (m3v iw s) m v) as (m1 & q' & A & Hq' & B & _ & D); try lia; auto.
      assert (q' = q) by congruence. subst q'. exists m1. auto. }
    destruct HA as (m1 & A1 & B1 & D1). unfold obind at 1. rewrite A1.
    assert (HB : exists m2, match b with Some s => col_upd (op_cat mass) (Some (o + i)%nat) (v3cross dp s) m1 | None => Some m1 end = Some m2 /\ length m2 = length m1 /\
       jmul m2 v = v3add (jmul m1 v) (match option_map (fun s => v3scale mass (v3cross dp s)) b with Some s => v3scale q s | None => v3zero end)).
    { destruct b as [s|]; [|exists m1; repeat split; auto; cbn; vring].
      destruct (col_upd_spec (op_cat mass) (v3scale mass) (fun _ => True) (o + i) (v3cross dp s) m1 v) as (m2 & q' & A & Hq' & B & _ & D); try lia; auto.
      assert (q' = q) by congruence. subst q'. exists m2. auto. }
    destruct HB as (m2 & A2 & B2 & D2). unfold obind at 1. rewrite A2.
    destruct (IH la (S i) o m2 v) as (m' & A' & B' & D'); try lia.
    exists m'. split; [exact A'|]. split; [lia|]. rewrite D', D2, D1, (skipn_nth v _ q Hq). cbn [map axis_sum].
    replace (o + S i)%nat with (S (o + i)) by lia. vring.
Qed.

(** At most one of the two axes of a component is not null. *)
Fixpoint excl (la aa : list (option (vec3 F))) : Prop :=
  match la, aa with
  | l :: la', a :: aa' => (l = None \/ a = None) /\ excl la' aa'
  | [], [] => True
  | _, _ => False
  end.
Lemma joint_axes_excl (j : joint F) f : excl (joint_lin_axes j f) (joint_ang_axes j f).
Proof. destruct j; cbn; unfold axis_null; auto 20. Qed.
Lemma ang_axes_length (j : joint F) f : length (joint_ang_axes j f) = joint_size j. Proof. destruct j; reflexivity. Qed.
Lemma lin_axes_length (j : joint F) f : length (joint_lin_axes j f) = joint_size j. Proof. destruct j; reflexivity. Qed.
Lemma lin_col_length la : forall aa (dp : vec3 F), length la = length aa -> length (lin_col la aa dp) = length la.
Proof. induction la as [|l la IH]; intros [|a aa] dp H; cbn in *; try discriminate; auto. Qed.
Lemma lin_col_sum la : forall aa (dp : vec3 F) q, excl la aa ->
  axis_sum (lin_col la aa dp) q = v3add (axis_sum la q) (v3cross (axis_sum aa q) dp).
Proof.
  induction la as [|l la IH]; intros [|a aa] dp q EX; cbn [excl] in EX; try contradiction.
  - destruct q; cbn; vring.
  - destruct q as [|k q]; [cbn; vring|]. cbn [lin_col axis_sum]. destruct EX as [D EX]. rewrite (IH aa dp q EX).
    destruct l as [s|], a as [u|]; destruct D as [D|D]; try discriminate D; vring.
Qed.
Lemma axis_sum_firstn ax : forall q, axis_sum ax (firstn (length ax) q) = axis_sum ax q.
Proof. induction ax as [|a ax IH]; intros [|k q]; cbn [length firstn axis_sum]; auto. now rewrite IH. Qed.
End Cols.

Section Walks.
Context {F : Type} {N : Num F} {E : Ext F}.
Notation lk := (link F).
Notation jac := (list (vec3 F)).

Fixpoint foldm (body : lk -> jac -> option jac) (h : list lk) (ks : list nat) (m : jac) : option jac :=
  match ks with
  | [] => Some m
  | k :: t => obind (nth_error h k) (fun l => obind (body l m) (foldm body h t))
  end.
Lemma lineage_step_nz (h : list lk) i l q : well_formed h -> nth_error h i = Some l -> l_parent l = Some q -> Nat.eqb i 0 = false.
Proof. intros W Hl Hp. apply Nat.eqb_neq. intros ->. pose proof (proj2 (wf_root h 0 l W Hl) eq_refl). congruence. Qed.
Lemma lineage_root_z (h : list lk) i l : well_formed h -> nth_error h i = Some l -> l_parent l = None -> i = 0.
Proof. intros W Hl Hp. now apply (wf_root h i l W Hl). Qed.
Lemma walk_root_fold body (h : list lk) i t : well_formed h -> lineage h i t -> forall fuel m, length t <= fuel ->
  walk_root body fuel h i m = foldm body h t m.
Proof.
  intros W. induction 1 as [i l Hl Hp|i l q t Hl Hp H IH]; intros [|fuel] m LE; cbn [length] in LE; try lia; cbn [walk_root foldm]; unfold obind.
  - pose proof (lineage_root_z h i l W Hl Hp). subst i. rewrite Hl. destruct (body l m); reflexivity.
  - rewrite (lineage_step_nz h i l q W Hl Hp), Hl. destruct (body l m) as [m1|]; auto. rewrite Hp. apply IH. lia.
Qed.
(** The part of a list before the first element satisfying [p], and that element. *)
Fixpoint cut (p : nat -> bool) (ks : list nat) : list nat * option nat :=
  match ks with
  | [] => ([], None)
  | k :: t => if p k then ([], Some k) else let r := cut p t in (k :: fst r, snd r)
  end.
Lemma cut_spec p ks : match snd (cut p ks) with
  | Some k => p k = true /\ exists post, ks = fst (cut p ks) ++ k :: post
  | None => ks = fst (cut p ks) /\ forall k, In k ks -> p k = false
  end.
Proof.
  induction ks as [|k t IH]; cbn; [split; [reflexivity|intros k []]|]. destruct (p k) eqn:Hk; cbn; [eauto|].
  destruct (snd (cut p t)) as [k'|].
  - destruct IH as (A & post & B). split; auto. exists post. now f_equal.
  - destruct IH as [A B]. split; [now f_equal|]. intros x [<-|Hx]; auto.
Qed.
Lemma walk_root_stop_fold body stop (h : list lk) i t : well_formed h -> lineage h i t -> forall fuel m, length t <= fuel ->
  walk_root_stop body stop fuel h i m =
  option_map (fun m' => (m', match snd (cut (fun k => Nat.eqb k stop) t) with Some _ => true | None => false end))
    (foldm body h (fst (cut (fun k => Nat.eqb k stop) t)) m).
Proof.
  intros W. induction 1 as [i l Hl Hp|i l q t Hl Hp H IH]; intros [|fuel] m LE; cbn [length] in LE; try lia; cbn [walk_root_stop cut]; unfold obind.
  - destruct (Nat.eqb i stop); [reflexivity|]. cbn. unfold obind. pose proof (lineage_root_z h i l W Hl Hp). subst i. rewrite Hl. destruct (body l m); reflexivity.
  - destruct (Nat.eqb i stop); [reflexivity|]. cbn [fst snd foldm]. unfold obind. rewrite (lineage_step_nz h i l q W Hl Hp), Hl. destruct (body l m) as [m1|]; auto. rewrite Hp. apply IH. lia.
Qed.
Definition stop_at (stop : option nat) (k : nat) : bool := orb (Nat.eqb k 0) (match stop with Some s => Nat.eqb k s | None => false end).
Lemma walk_stop_fold body stop (h : list lk) i t : well_formed h -> lineage h i t -> forall fuel m, length t <= fuel ->
  walk_stop body stop fuel h i m =
  option_map (fun m' => (m', match snd (cut (stop_at stop) t) with Some k => negb (Nat.eqb k 0) | None => false end))
    (foldm body h (fst (cut (stop_at stop) t)) m).
Proof.
  intros W. induction 1 as [i l Hl Hp|i l q t Hl Hp H IH]; intros [|fuel] m LE; cbn [length] in LE; try lia; cbn [walk_stop cut].
  - rewrite (lineage_root_z h i l W Hl Hp). reflexivity.
  - pose proof (lineage_step_nz h i l q W Hl Hp) as NZ.
    assert (SA : match stop with Some s => Nat.eqb i s | None => false end = stop_at stop i) by (unfold stop_at; now rewrite NZ).
    rewrite NZ, SA. destruct (stop_at stop i); cbn [fst snd foldm]; [cbn; now rewrite NZ|].
    unfold obind. rewrite Hl. destruct (body l m) as [m1|]; auto. rewrite Hp. apply IH. lia.
Qed.
Lemma lineage_cut_zero (h : list lk) i t stop : well_formed h -> lineage h i t ->
  exists k, snd (cut (stop_at stop) t) = Some k /\ (Nat.eqb k 0 = true -> t = fst (cut (stop_at stop) t) ++ [0]) /\
    (Nat.eqb k 0 = false -> stop = Some k /\ exists post, t = fst (cut (stop_at stop) t) ++ k :: post).
Proof.
  intros W. induction 1 as [i l Hl Hp|i l q t Hl Hp H IH]; cbn [cut].
  - rewrite (lineage_root_z h i l W Hl Hp). exists 0. cbn. repeat split; try discriminate.
  - pose proof (lineage_step_nz h i l q W Hl Hp) as NZ. destruct (stop_at stop i) eqn:SA; cbn [fst snd app].
    + exists i. split; [reflexivity|]. rewrite NZ. split; [discriminate|]. intros _. split; [|eauto].
      unfold stop_at in SA. rewrite NZ in SA. destruct stop as [s|]; [|discriminate]. apply Nat.eqb_eq in SA. now subst.
    + destruct IH as (k & A & B & C). exists k. split; [exact A|]. split; [intros G; f_equal; auto|].
      intros G. destruct (C G) as (D & post & P). split; auto. exists post. now f_equal.
Qed.
End Walks.

Section Vels.
Context {F : Type} {N : Num F} {L : NumLaws F N} {E : Ext F} {X : ExtLaws F N E}.
Add Field FField2 : num_field.
Local Open Scope num_scope.
Notation lk := (link F).
Notation jac := (list (vec3 F)).

(** The velocities of an array are those of its joints. *)
Definition vels_ok (h : list lk) : Prop := forall i l, nth_error h i = Some l ->
  b_comvel (l_body l) = v3add (vlin (l_vel l)) (v3cross (vang (l_vel l)) (l_com l)) /\
  exists pv, l_vel l = joint_inc_vel (l_joint l) (xform6lin (l_adj l) pv) /\
  match l_parent l with
  | None => pv = v6zero
  | Some q => exists lq, nth_error h q = Some lq /\ pv = l_vel lq
  end.
(** The vector [v] holds the joint velocities of [l] at its offset. *)
Definition holds (v : list F) (l : lk) : Prop :=
  match l_offset l with
  | Some o => (o + joint_size (l_joint l) <= length v)%nat /\ firstn (joint_size (l_joint l)) (skipn o v) = joint_get_vel (l_joint l)
  | None => joint_size (l_joint l) = 0%nat
  end.
Definition state_ok (h : list lk) (v : list F) : Prop :=
  well_formed h /\ placed 0 h /\ frames_ok h /\ vels_ok h /\
  forall i l, nth_error h i = Some l -> holds v l /\ rigid (l_adj l) /\ rigid (l_frame l).

Definition angc (l : lk) : vec3 F := axis_sum (joint_ang_axes (l_joint l) (l_frame l)) (joint_get_vel (l_joint l)).
Definition linc (p : vec3 F) (l : lk) : vec3 F := axis_sum (link_lin_col l p) (joint_get_vel (l_joint l)).
Definition at_link (h : list lk) (f : lk -> vec3 F) (k : nat) : vec3 F := match nth_error h k with Some l => f l | None => v3zero end.

Lemma linc_eq p l : linc p l = v3add (axis_sum (joint_lin_axes (l_joint l) (l_frame l)) (joint_get_vel (l_joint l)))
                                     (v3cross (angc l) (v3sub p (fpos (l_frame l)))).
Proof. unfold linc, link_lin_col. apply lin_col_sum. apply joint_axes_excl. Qed.

Lemma world_vel_at_eq l p : rigid (l_frame l) ->
  world_vel_at l p = v3add (m3v (fatt (l_frame l)) (vlin (l_vel l))) (v3cross (world_angvel l) (v3sub p (fpos (l_frame l)))).
Proof.
  intros R. unfold world_vel_at, world_pointvel, world_angvel, xforminv. rewrite m3v_add_r, (rot_cross _ _ _ R), (rot_v_tv _ _ R). reflexivity.
Qed.
Lemma step_vel (f : frame F) (adj : frame F) (j : joint F) pv pf p :
  rigid pf -> rigid adj -> f = fcascade pf adj ->
  let v := joint_inc_vel j (xform6lin adj pv) in
  let ac := axis_sum (joint_ang_axes j f) (joint_get_vel j) in
  m3v (fatt f) (vang v) = v3add ac (m3v (fatt pf) (vang pv)) /\
  v3add (m3v (fatt f) (vlin v)) (v3cross (m3v (fatt f) (vang v)) (v3sub p (fpos f))) =
  v3add (v3add (axis_sum (joint_lin_axes j f) (joint_get_vel j)) (v3cross ac (v3sub p (fpos f))))
        (v3add (m3v (fatt pf) (vlin pv)) (v3cross (m3v (fatt pf) (vang pv)) (v3sub p (fpos pf)))).
Proof.
  intros RP RA EF v ac.
  assert (HA : m3v (fatt f) (vang v) = v3add ac (m3v (fatt pf) (vang pv))).
  { subst ac. rewrite (axes_ang j f (xform6lin adj pv)). fold v.
    assert (G : m3v (fatt f) (vang (xform6lin adj pv)) = m3v (fatt pf) (vang pv)).
    { rewrite EF. cbn [fatt fcascade]. rewrite m3mul_v. unfold xform6lin, m3tv6, v6linshift. cbn [vang vlin]. now rewrite (rot_v_tv _ _ RA). }
    rewrite <- G, <- m3v_add_r. f_equal. generalize (vang v), (vang (xform6lin adj pv)). vring. }
  split; [exact HA|].
  assert (HL : m3v (fatt f) (vlin v) = v3add (axis_sum (joint_lin_axes j f) (joint_get_vel j)) (m3v (fatt pf) (v3add (vlin pv) (v3cross (vang pv) (fpos adj))))).
  { rewrite (axes_lin j f (xform6lin adj pv)). fold v.
    assert (G : m3v (fatt f) (vlin (xform6lin adj pv)) = m3v (fatt pf) (v3add (vlin pv) (v3cross (vang pv) (fpos adj)))).
    { rewrite EF. cbn [fatt fcascade]. rewrite m3mul_v. unfold xform6lin, m3tv6, v6linshift. cbn [vang vlin]. now rewrite (rot_v_tv _ _ RA). }
    rewrite <- G, <- m3v_add_r. f_equal. generalize (vlin v), (vlin (xform6lin adj pv)). vring. }
  rewrite HA, HL, m3v_add_r, (rot_cross _ _ _ RP).
  assert (HP : fpos f = v3add (fpos pf) (m3v (fatt pf) (fpos adj))) by (rewrite EF; cbn [fpos fcascade]; unfold xform; vring).
  rewrite HP. generalize (m3v (fatt pf) (vang pv)), (m3v (fatt pf) (fpos adj)), (m3v (fatt pf) (vlin pv)), (fpos pf), (axis_sum (joint_lin_axes j f) (joint_get_vel j)), ac.
  vring.
Qed.
Lemma vel_sum (h : list lk) p : frames_ok h -> vels_ok h -> (forall i l, nth_error h i = Some l -> rigid (l_adj l) /\ rigid (l_frame l)) ->
  forall i t, lineage h i t -> forall l, nth_error h i = Some l ->
  world_angvel l = v3sum (map (at_link h angc) t) /\ world_vel_at l p = v3sum (map (at_link h (linc p)) t).
Proof.
  intros FR VR RG. induction 1 as [i l Hl Hp|i l q t Hl Hp H IH]; intros l0 Hl0; assert (l0 = l) by congruence; subst l0; clear Hl0.
  - destruct (FR i l Hl) as (_ & _ & B). rewrite Hp in B. destruct (VR i l Hl) as (_ & pv & V & P). rewrite Hp in P. subst pv.
    destruct (RG i l Hl) as [RA RF]. rewrite (world_vel_at_eq l p RF). unfold v3sum. cbn [map fold_right]. unfold at_link. rewrite Hl, linc_eq.
    destruct (step_vel (l_frame l) (l_adj l) (l_joint l) v6zero fid p rigid_id RA B) as [S1 S2]. cbv zeta in S1, S2. rewrite <- V in S1, S2.
    fold (angc l) in S1, S2. fold (world_angvel l) in S1, S2. rewrite S2, S1. split; f_equal; vring.
  - destruct (FR i l Hl) as (_ & _ & B). rewrite Hp in B. destruct (VR i l Hl) as (_ & pv & V & P). rewrite Hp in P.
    destruct B as (lq & Hq & B). destruct P as (lq' & Hq' & P). assert (lq' = lq) by congruence. subst lq' pv.
    destruct (IH lq Hq) as [IA IL]. destruct (RG i l Hl) as [RA RF]. destruct (RG q lq Hq) as [RA' RF'].
    rewrite (world_vel_at_eq l p RF). rewrite (world_vel_at_eq lq p RF') in IL. unfold v3sum. cbn [map fold_right]. fold (v3sum (map (at_link h angc) t)) (v3sum (map (at_link h (linc p)) t)).
    rewrite <- IA, <- IL. unfold at_link. rewrite Hl, linc_eq.
    destruct (step_vel (l_frame l) (l_adj l) (l_joint l) (l_vel lq) (l_frame lq) p RF' RA B) as [S1 S2]. cbv zeta in S1, S2. rewrite <- V in S1, S2.
    fold (angc l) in S1, S2. fold (world_angvel l) in S1, S2. fold (world_angvel lq) in S1, S2. split; [exact S1 | exact S2].
Qed.
End Vels.

Section Jac.
Context {F : Type} {N : Num F} {L : NumLaws F N} {E : Ext F} {X : ExtLaws F N E}.
Add Field FField3 : num_field.
Local Open Scope num_scope.
Notation lk := (link F).
Notation jac := (list (vec3 F)).

Lemma foldm_spec (body : lk -> jac -> option jac) (h : list lk) (v : list F) (PRE : nat -> jac -> Prop) (con : nat -> vec3 F) ks : NoDup ks ->
  (forall k, In k ks -> exists l, nth_error h k = Some l /\ forall m, length m = length v -> PRE k m ->
    exists m', body l m = Some m' /\ length m' = length v /\ jmul m' v = v3add (jmul m v) (con k) /\
      forall k', In k' ks -> k' <> k -> PRE k' m -> PRE k' m') ->
  forall m, length m = length v -> (forall k, In k ks -> PRE k m) ->
  exists m', foldm body h ks m = Some m' /\ length m' = length v /\ jmul m' v = v3add (jmul m v) (v3sum (map con ks)).
Proof.
  induction ks as [|k ks IH]; intros ND B m LM PR.
  - exists m. split; [reflexivity|]. split; [exact LM|]. unfold v3sum. cbn [map fold_right]. vring.
  - inversion_clear ND as [|? ? NI ND'].
    destruct (B k (or_introl eq_refl)) as (l & Hl & Bk). destruct (Bk m LM (PR k (or_introl eq_refl))) as (m1 & A1 & L1 & J1 & P1).
    destruct (IH ND') with (m := m1) as (m' & A' & L' & J'); auto.
    + intros k1 H1. destruct (B k1 (or_intror H1)) as (l1 & Hl1 & Bk1). exists l1. split; [exact Hl1|].
      intros mm LL PP. destruct (Bk1 mm LL PP) as (m' & ? & ? & ? & G). exists m'. repeat split; auto. intros k' Hk'. apply G. now right.
    + intros k' Hk'. apply P1; [now right| |apply PR; now right]. intros ->. contradiction.
    + exists m'. cbn [foldm]. unfold obind. rewrite Hl, A1. split; [exact A'|]. split; [exact L'|]. rewrite J', J1.
      unfold v3sum. cbn [map fold_right]. fold (v3sum (map con ks)). generalize (con k). vring.
Qed.

Definition in_range (l : lk) (c : nat) : Prop :=
  match l_offset l with Some o => (o <= c < o + joint_size (l_joint l))%nat | None => False end.
Lemma ranges_disjoint (h : list lk) i j li lj c : placed 0 h -> nth_error h i = Some li -> nth_error h j = Some lj -> i <> j ->
  in_range li c -> in_range lj c -> False.
Proof.
  intros P Hi Hj NE RI RJ. unfold in_range in *. rewrite (placed_nth 0 h i li P Hi) in RI. rewrite (placed_nth 0 h j lj P Hj) in RJ.
  destruct (Nat.ltb 0 (lsize li)); [|contradiction]. destruct (Nat.ltb 0 (lsize lj)); [|contradiction].
  fold (lsize li) in RI. fold (lsize lj) in RJ.
  pose proof (total_firstn_S h i li Hi). pose proof (total_firstn_S h j lj Hj).
  assert (i < j \/ j < i)%nat as [G|G] by lia.
  - pose proof (total_firstn_mono h (S i) j G). lia.
  - pose proof (total_firstn_mono h (S j) i G). lia.
Qed.
Definition zero_range (h : list lk) (k : nat) (m : jac) : Prop :=
  forall l, nth_error h k = Some l -> forall c x, in_range l c -> nth_error m c = Some x -> x = v3zero.

(** One link, any column operation that adds [g] of the axis to a column satisfying [Pz]. *)
Lemma link_cols op g (Pz : vec3 F -> Prop) (v : list F) (l : lk) axes :
  (forall old s, Pz old -> op old s = v3add old (g s)) -> lin3 g -> holds v l -> length axes = joint_size (l_joint l) ->
  forall m, length m = length v -> (forall c x, in_range l c -> nth_error m c = Some x -> Pz x) ->
  exists m', cols op (l_offset l) 0 axes m = Some m' /\ length m' = length v /\
    jmul m' v = v3add (jmul m v) (g (axis_sum axes (joint_get_vel (l_joint l)))) /\
    forall c, ~ in_range l c -> nth_error m' c = nth_error m c.
Proof.
  intros HG LG HO LA m LM HP. unfold holds, in_range in *. destruct (l_offset l) as [o|].
  - destruct HO as [LE EV]. destruct (cols_spec op g Pz axes HG 0 o m v) as (m' & A & B & C & D); try lia.
    { intros k Hk c. apply HP. lia. }
    exists m'. split; [exact A|]. split; [lia|]. split.
    + rewrite D, (axis_sum_lin g axes _ LG), <- (axis_sum_firstn axes (skipn (o + 0) v)), Nat.add_0_r, LA, EV. reflexivity.
    + intros c Hc. apply C. lia.
  - rewrite HO in LA. destruct axes; [|discriminate]. exists m. cbn. split; [reflexivity|]. split; [exact LM|]. split; [|auto].
    rewrite (lin3_zero g LG). vring.
Qed.
Lemma sumc_lin (h : list lk) g (f : lk -> vec3 F) ks : lin3 g -> v3sum (map (at_link h (fun l => g (f l))) ks) = g (v3sum (map (at_link h f) ks)).
Proof.
  intros G. rewrite (lin3_sum g _ G), map_map. f_equal. apply map_ext. intros k. unfold at_link. destruct (nth_error h k); [reflexivity|].
  symmetry. now apply lin3_zero.
Qed.
(** Several links with an operation that sets columns that are zero. *)
Lemma fold_set (h : list lk) v (ax : lk -> list (option (vec3 F))) ks : placed 0 h ->
  (forall i l, nth_error h i = Some l -> holds v l) -> (forall l, length (ax l) = joint_size (l_joint l)) ->
  NoDup ks -> (forall k, In k ks -> (k < length h)%nat) -> forall m, length m = length v -> (forall k, In k ks -> zero_range h k m) ->
  exists m', foldm (fun l m => cols op_set (l_offset l) 0 (ax l) m) h ks m = Some m' /\ length m' = length v /\
    jmul m' v = v3add (jmul m v) (v3sum (map (at_link h (fun l => axis_sum (ax l) (joint_get_vel (l_joint l)))) ks)).
Proof.
  intros P HO LA ND LT m LM PR. apply (foldm_spec _ h v (zero_range h)); auto.
  intros k Hk. destruct (nth_error h k) as [l|] eqn:Hl; [|apply nth_error_None in Hl; specialize (LT k Hk); lia].
  exists l. split; [reflexivity|]. intros m0 LM0 Z0.
  destruct (link_cols op_set (fun s => s) (fun x => x = v3zero) v l (ax l)) with (m := m0) as (m' & A & B & C & D); auto.
  { intros old s ->. unfold op_set. vring. } { apply lin3_id. } { eauto. } { intros c x. apply Z0. exact Hl. }
  exists m'. split; [exact A|]. split; [exact B|]. split; [unfold at_link; rewrite Hl; exact C|].
  intros k' Hk' NE Z' l' Hl' c x RG Hx. rewrite D in Hx; [eapply Z'; eauto|].
  intros G. exact (ranges_disjoint h k' k l' l c P Hl' Hl NE RG G).
Qed.
(** Several links with an operation that adds to the columns. *)
Lemma fold_add (h : list lk) v op g (ax : lk -> list (option (vec3 F))) ks :
  (forall old s, op old s = v3add old (g s)) -> lin3 g ->
  (forall i l, nth_error h i = Some l -> holds v l) -> (forall l, length (ax l) = joint_size (l_joint l)) ->
  NoDup ks -> (forall k, In k ks -> (k < length h)%nat) -> forall m, length m = length v ->
  exists m', foldm (fun l m => cols op (l_offset l) 0 (ax l) m) h ks m = Some m' /\ length m' = length v /\
    jmul m' v = v3add (jmul m v) (g (v3sum (map (at_link h (fun l => axis_sum (ax l) (joint_get_vel (l_joint l)))) ks))).
Proof.
  intros HG LG HO LA ND LT m LM. rewrite <- (sumc_lin h g _ ks LG).
  apply (foldm_spec _ h v (fun _ _ => True)); auto.
  intros k Hk. destruct (nth_error h k) as [l|] eqn:Hl; [|apply nth_error_None in Hl; specialize (LT k Hk); lia].
  exists l. split; [reflexivity|]. intros m0 LM0 _.
  destruct (link_cols op g (fun x => True) v l (ax l)) with (m := m0) as (m' & A & B & C & D); auto. { eauto. }
  exists m'. split; [exact A|]. split; [exact B|]. split; [unfold at_link; rewrite Hl; exact C|]. auto.
Qed.
Lemma jzero_range (h : list lk) k m : zero_range h k (jzero m).
Proof. intros l _ c x _. apply jzero_nth. Qed.
Lemma link_lin_col_length (p : vec3 F) (l : lk) : length (link_lin_col l p) = joint_size (l_joint l).
Proof. unfold link_lin_col. rewrite lin_col_length; [apply lin_axes_length|]. now rewrite lin_axes_length, ang_axes_length. Qed.

Section State.
Context (c : chain F) (v : list F) (S : state_ok (c_links c) v).
Let h := c_links c.
Lemma st_holds i l : nth_error h i = Some l -> holds v l. Proof. intros H. destruct S as (_ & _ & _ & _ & G). apply (G i l H). Qed.
Lemma st_rigid i l : nth_error h i = Some l -> rigid (l_adj l) /\ rigid (l_frame l).
Proof. intros H. destruct S as (_ & _ & _ & _ & G). apply (G i l H). Qed.
Lemma st_lineage i : (i < length h)%nat -> exists t, lineage h i t /\ NoDup t /\ (length t <= c_fuel c)%nat /\ forall k, In k t -> (k < length h)%nat.
Proof.
  intros Hi. destruct S as (W & _). destruct (wf_lineage h i W Hi) as (t & A & B & C). exists t. split; [exact A|]. split; [exact B|].
  split; [unfold c_fuel; fold h; lia|]. eapply lineage_lt; eauto.
Qed.
Lemma st_vel p i t l : lineage h i t -> nth_error h i = Some l ->
  world_angvel l = v3sum (map (at_link h angc) t) /\ world_vel_at l p = v3sum (map (at_link h (linc p)) t).
Proof. intros A Hl. destruct S as (_ & _ & FR & VR & _). eapply vel_sum; eauto using st_rigid. Qed.
Lemma at_xform l p : rigid (l_frame l) -> world_vel_at l (xform (l_frame l) p) = world_pointvel l p.
Proof. intros R. unfold world_vel_at. now rewrite xforminv_xform. Qed.

Lemma wld_ang_spec i l m : length m = length v -> nth_error h i = Some l ->
  exists J, wld_ang_jacobi c i m = Some J /\ length J = length v /\ jmul J v = world_angvel l.
Proof.
  intros LM Hl. destruct (st_lineage i (nth_lt _ _ _ Hl)) as (t & A & B & C & D). pose proof S as (W & P & _).
  unfold wld_ang_jacobi. fold h. rewrite (walk_root_fold _ h i t W A) by exact C.
  destruct (fold_set h v (fun l => joint_ang_axes (l_joint l) (l_frame l)) t P st_holds (fun l => ang_axes_length _ _) B D (jzero m)) as (J & J1 & J2 & J3).
  { now rewrite jzero_length. } { intros; apply jzero_range. }
  exists J. split; [exact J1|]. split; [exact J2|]. rewrite J3, jmul_zero. fold angc. destruct (st_vel v3zero i t l A Hl) as [V _]. rewrite V. vring.
Qed.
Lemma wld_lin_spec i l p m : length m = length v -> nth_error h i = Some l ->
  exists J, wld_lin_jacobi c i p m = Some J /\ length J = length v /\ jmul J v = world_pointvel l p.
Proof.
  intros LM Hl. destruct (st_lineage i (nth_lt _ _ _ Hl)) as (t & A & B & C & D). pose proof S as (W & P & _).
  unfold wld_lin_jacobi. fold h. unfold obind. rewrite Hl, (walk_root_fold _ h i t W A) by exact C.
  destruct (fold_set h v (fun l' => link_lin_col l' (xform (l_frame l) p)) t P st_holds (link_lin_col_length _) B D (jzero m)) as (J & J1 & J2 & J3).
  { now rewrite jzero_length. } { intros; apply jzero_range. }
  exists J. split; [exact J1|]. split; [exact J2|]. rewrite J3, jmul_zero.
  destruct (st_vel (xform (l_frame l) p) i t l A Hl) as [_ V]. rewrite (at_xform l p (proj2 (st_rigid i l Hl))) in V.
  rewrite V. fold (linc (xform (l_frame l) p)). vring.
Qed.
Lemma v3sum_snoc l (x : vec3 F) : v3sum (l ++ [x]) = v3add (v3sum l) x.
Proof. rewrite v3sum_app. unfold v3sum at 2. cbn [fold_right]. vring. Qed.
Lemma op_sub_spec (old s : vec3 F) : op_sub old s = v3add old (v3opp s). Proof. unfold op_sub. vring. Qed.
Lemma op_cat_spec k (old s : vec3 F) : op_cat k old s = v3add old (v3scale k s). Proof. unfold op_cat, v3cat. vring. Qed.
Lemma nodup_prefix {A} (a b : list A) : NoDup (a ++ b) -> NoDup a.
Proof. induction a as [|x a IH]; intros H; [constructor|]. cbn in H. inversion_clear H as [|? ? NI ND]. constructor; [|auto]. intro G. apply NI, in_or_app. auto. Qed.

Lemma l2l_ang_spec i j li lj m : length m = length v -> nth_error h i = Some li -> nth_error h j = Some lj ->
  exists J, link_to_link_ang_jacobi c i j m = Some J /\ length J = length v /\ jmul J v = v3sub (world_angvel lj) (world_angvel li).
Proof.
  intros LM Hi Hj. pose proof S as (W & P & _).
  destruct (st_lineage i (nth_lt _ _ _ Hi)) as (ti & Ai & Bi & Ci & Di). destruct (st_lineage j (nth_lt _ _ _ Hj)) as (tj & Aj & Bj & Cj & Dj).
  destruct (st_vel v3zero i ti li Ai Hi) as [Vi _]. destruct (st_vel v3zero j tj lj Aj Hj) as [Vj _].
  unfold link_to_link_ang_jacobi. fold h. rewrite (walk_stop_fold _ (Some i) h j tj W Aj) by exact Cj.
  destruct (lineage_cut_zero h j tj (Some i) W Aj) as (k & K1 & K2 & K3). rewrite K1.
  set (pre := fst (cut (stop_at (Some i)) tj)) in *.
  assert (ZP : exists post, tj = pre ++ post).
  { destruct (Nat.eqb k 0) eqn:Z; [exists [0%nat]; auto|]. destruct (K3 eq_refl) as (_ & post & G). eauto. }
  destruct (fold_set h v (fun l => joint_ang_axes (l_joint l) (l_frame l)) pre P st_holds (fun l => ang_axes_length _ _)) with (m := jzero m) as (J & J1 & J2 & J3).
  { destruct ZP as (post & G). rewrite G in Bj. eapply nodup_prefix; eauto. }
  { intros x Hx. destruct ZP as (post & G). apply Dj. rewrite G. apply in_or_app. auto. }
  { now rewrite jzero_length. } { intros; apply jzero_range. }
  unfold ang_cols at 1. rewrite J1. cbn [option_map obind fst snd].
  destruct (Nat.eqb k 0) eqn:Z; cbn [negb].
  - specialize (K2 eq_refl). rewrite (walk_stop_fold _ None h i ti W Ai) by exact Ci.
    destruct (lineage_cut_zero h i ti None W Ai) as (k' & K1' & K2' & K3'). rewrite K1'.
    set (pre' := fst (cut (stop_at None) ti)) in *.
    destruct (Nat.eqb k' 0) eqn:Z'; [|destruct (K3' eq_refl) as [G _]; discriminate G]. specialize (K2' eq_refl).
    destruct (fold_add h v op_sub v3opp (fun l => joint_ang_axes (l_joint l) (l_frame l)) pre' op_sub_spec lin3_opp st_holds (fun l => ang_axes_length _ _)) with (m := J) as (J' & J1' & J2' & J3').
    { rewrite K2' in Bi. eapply nodup_prefix; eauto. } { intros x Hx. apply Di. rewrite K2'. apply in_or_app. auto. } { exact J2. }
    unfold ang_cols. rewrite J1'. cbn [option_map fst]. exists J'. split; [reflexivity|]. split; [exact J2'|].
    rewrite J3', J3, jmul_zero. fold angc. rewrite Vi, Vj, K2, K2', !map_app. cbn [map]. rewrite !v3sum_snoc. generalize (at_link h angc 0). vring.
  - destruct (K3 eq_refl) as (G & post & EJ). injection G as <-. exists J. split; [reflexivity|]. split; [exact J2|].
    pose proof (lineage_suffix h j tj Aj pre i post EJ) as AI. assert (ti = i :: post) by (eapply lineage_unique; eauto). subst ti.
    rewrite J3, jmul_zero. fold angc. rewrite Vi, Vj, EJ, map_app, v3sum_app. vring.
Qed.
Lemma l2l_lin_spec i j li lj p m : length m = length v -> nth_error h i = Some li -> nth_error h j = Some lj ->
  exists J, link_to_link_lin_jacobi c i j p m = Some J /\ length J = length v /\
    jmul J v = v3sub (world_pointvel lj p) (world_vel_at li (xform (l_frame lj) p)).
Proof.
  intros LM Hi Hj. pose proof S as (W & P & _). set (tp := xform (l_frame lj) p).
  destruct (st_lineage i (nth_lt _ _ _ Hi)) as (ti & Ai & Bi & Ci & Di). destruct (st_lineage j (nth_lt _ _ _ Hj)) as (tj & Aj & Bj & Cj & Dj).
  destruct (st_vel tp i ti li Ai Hi) as [_ Vi]. destruct (st_vel tp j tj lj Aj Hj) as [_ Vj].
  assert (EP : world_vel_at lj tp = world_pointvel lj p) by (apply at_xform; apply (st_rigid j lj Hj)). rewrite EP in Vj.
  unfold link_to_link_lin_jacobi. fold h. unfold obind at 1. rewrite Hj. fold tp. rewrite (walk_root_stop_fold _ i h j tj W Aj) by exact Cj.
  pose proof (cut_spec (fun k => Nat.eqb k i) tj) as CS. set (pre := fst (cut (fun k => Nat.eqb k i) tj)) in *.
  assert (ZP : exists post, tj = pre ++ post).
  { destruct (snd (cut (fun k => Nat.eqb k i) tj)) as [k|]; [destruct CS as (_ & post & G); eauto|]. exists []. rewrite app_nil_r. apply CS. }
  destruct (fold_set h v (fun l' => link_lin_col l' tp) pre P st_holds (link_lin_col_length _)) with (m := jzero m) as (J & J1 & J2 & J3).
  { destruct ZP as (post & G). rewrite G in Bj. eapply nodup_prefix; eauto. }
  { intros x Hx. destruct ZP as (post & G). apply Dj. rewrite G. apply in_or_app. auto. }
  { now rewrite jzero_length. } { intros; apply jzero_range. }
  unfold lin_cols at 1. rewrite J1. cbn [option_map obind fst snd]. fold (linc tp) in J3.
  destruct (snd (cut (fun k => Nat.eqb k i) tj)) as [k|].
  - destruct CS as (EK & post & EJ). apply Nat.eqb_eq in EK. subst k. exists J. split; [reflexivity|]. split; [exact J2|].
    pose proof (lineage_suffix h j tj Aj pre i post EJ) as AI. assert (ti = i :: post) by (eapply lineage_unique; eauto). subst ti.
    rewrite J3, jmul_zero. rewrite Vi, Vj, EJ, map_app, v3sum_app. vring.
  - destruct CS as [EJ _]. rewrite (walk_root_fold _ h i ti W Ai) by exact Ci.
    destruct (fold_add h v op_sub v3opp (fun l' => link_lin_col l' tp) ti op_sub_spec lin3_opp st_holds (link_lin_col_length _)) with (m := J) as (J' & J1' & J2' & J3'); auto.
    unfold lin_cols. rewrite J1'. exists J'. split; [reflexivity|]. split; [exact J2'|].
    rewrite J3', J3, jmul_zero. fold (linc tp). rewrite Vi, Vj, <- EJ. vring.
Qed.

(** Centre of mass. *)
Lemma com_loop_spec t : forall pre m, h = pre ++ t -> length m = length v ->
  exists J, com_jacobi_loop c (length pre) t m = Some J /\ length J = length v /\
    jmul J v = v3add (jmul m v) (v3sum (map (fun l => v3scale (l_mass l / c_mass c) (world_vel_at l (b_wcom (l_body l)))) t)).
Proof.
  induction t as [|l t IH]; intros pre m EH LM.
  - exists m. split; [reflexivity|]. split; [exact LM|]. unfold v3sum. cbn [map fold_right]. vring.
  - assert (Hl : nth_error h (length pre) = Some l) by (rewrite EH; apply nth_app_len).
    assert (HJ : exists m1, (if nzerob (l_mass l) then Some m
       else walk_root (lin_cols (op_cat (l_mass l / c_mass c)) (b_wcom (l_body l))) (c_fuel c) (c_links c) (length pre) m) = Some m1 /\ length m1 = length v /\
       jmul m1 v = v3add (jmul m v) (v3scale (l_mass l / c_mass c) (world_vel_at l (b_wcom (l_body l))))).
    { unfold nzerob. destruct (l_mass l <=? 0) eqn:M1; cbn [andb]; [destruct (0 <=? l_mass l) eqn:M2|].
      - exists m. split; [reflexivity|]. split; [exact LM|]. rewrite (nleb_antisym _ _ M1 M2).
        assert (Z : 0 / c_mass c = 0) by (rewrite (Field_theory.Fdiv_def num_field); ring). rewrite Z. generalize (world_vel_at l (b_wcom (l_body l))). vring.
      - destruct (st_lineage (length pre) (nth_lt _ _ _ Hl)) as (tl & A & B & C & D). pose proof S as (W & P & _). fold h. rewrite (walk_root_fold _ h _ tl W A) by exact C.
        destruct (st_vel (b_wcom (l_body l)) _ tl l A Hl) as [_ V]. rewrite V.
        exact (fold_add h v _ _ (fun l' => link_lin_col l' (b_wcom (l_body l))) tl (op_cat_spec _) (lin3_scale _) st_holds (link_lin_col_length _) B D m LM).
      - destruct (st_lineage (length pre) (nth_lt _ _ _ Hl)) as (tl & A & B & C & D). pose proof S as (W & P & _). fold h. rewrite (walk_root_fold _ h _ tl W A) by exact C.
        destruct (st_vel (b_wcom (l_body l)) _ tl l A Hl) as [_ V]. rewrite V.
        exact (fold_add h v _ _ (fun l' => link_lin_col l' (b_wcom (l_body l))) tl (op_cat_spec _) (lin3_scale _) st_holds (link_lin_col_length _) B D m LM). }
    destruct HJ as (m1 & A1 & B1 & C1). destruct (IH (pre ++ [l]) m1) as (J & A & B & C); auto.
    { rewrite <- app_assoc. exact EH. }
    rewrite app_length, Nat.add_1_r in A. cbn [com_jacobi_loop]. unfold obind. rewrite A1. exists J. split; [exact A|]. split; [exact B|].
    rewrite C, C1. unfold v3sum. cbn [map fold_right]. fold (v3sum (map (fun l => v3scale (l_mass l / c_mass c) (world_vel_at l (b_wcom (l_body l)))) t)).
    generalize (v3scale (l_mass l / c_mass c) (world_vel_at l (b_wcom (l_body l)))). vring.
Qed.
Lemma st_com_vel i l : nth_error h i = Some l -> world_vel_at l (b_wcom (l_body l)) = world_pointvel l (l_com l) /\
  m3v (fatt (l_frame l)) (b_comvel (l_body l)) = world_pointvel l (l_com l).
Proof.
  intros Hl. pose proof S as (_ & _ & FR & VR & _). destruct (FR i l Hl) as (_ & WC & _). destruct (VR i l Hl) as (CV & _).
  rewrite WC, (at_xform l _ (proj2 (st_rigid i l Hl))), CV. auto.
Qed.
Lemma com_spec m : length m = length v ->
  exists J, com_jacobi c m = Some J /\ length J = length v /\ jmul J v = c_comvel (chain_calc_comvel c) /\
    jmul J v = v3sum (map (fun l => v3scale (l_mass l / c_mass c) (world_pointvel l (l_com l))) h).
Proof.
  intros LM. destruct (com_loop_spec h [] (jzero m) eq_refl) as (J & A & B & C); [now rewrite jzero_length|].
  exists J. split; [exact A|]. split; [exact B|].
  assert (E1 : jmul J v = v3sum (map (fun l => v3scale (l_mass l / c_mass c) (world_pointvel l (l_com l))) h)).
  { rewrite C, jmul_zero. rewrite (map_ext_in _ (fun l => v3scale (l_mass l / c_mass c) (world_pointvel l (l_com l)))); [vring|].
    intros l Hin. apply In_nth_error in Hin as (i & Hl). now rewrite (proj1 (st_com_vel i l Hl)). }
  split; [|exact E1]. rewrite E1. cbn [c_comvel chain_calc_comvel]. fold h.
  assert (G : forall t a, (forall l, In l t -> m3v (fatt (l_frame l)) (b_comvel (l_body l)) = world_pointvel l (l_com l)) ->
    fold_left (fun p l => v3cat p (l_mass l / c_mass c) (m3v (fatt (l_frame l)) (b_comvel (l_body l)))) t a =
    v3add a (v3sum (map (fun l => v3scale (l_mass l / c_mass c) (world_pointvel l (l_com l))) t))).
  { induction t as [|l t IH]; intros a H; [unfold v3sum; cbn [map fold_left fold_right]; vring|].
    cbn [fold_left]. rewrite IH by (intros; apply H; now right). rewrite (H l (or_introl eq_refl)). unfold v3sum. cbn [map fold_right].
    fold (v3sum (map (fun l => v3scale (l_mass l / c_mass c) (world_pointvel l (l_com l))) t)). unfold v3cat.
    generalize (v3scale (l_mass l / c_mass c) (world_pointvel l (l_com l))). vring. }
  rewrite G; [vring|]. intros l Hin. apply In_nth_error in Hin as (i & Hl). apply (st_com_vel i l Hl).
Qed.

(** Angular momentum. *)
Lemma am_body_spec li p l m : holds v l -> length m = length v ->
  exists m', link_am_body li p l m = Some m' /\ length m' = length v /\
    jmul m' v = v3add (jmul m v) (v3add (m3v (link_wld_inertia li) (angc l)) (v3scale (l_mass li) (v3cross (v3sub (b_wcom (l_body li)) p) (linc (b_wcom (l_body li)) l)))).
Proof.
  intros HO LM. unfold link_am_body, holds in *. destruct (l_offset l) as [o|].
  - destruct HO as [LE EV]. set (aa := joint_ang_axes (l_joint l) (l_frame l)). set (la := link_lin_col l (b_wcom (l_body li))).
    assert (LA : length aa = joint_size (l_joint l)) by apply ang_axes_length.
    assert (LB : length la = joint_size (l_joint l)) by apply link_lin_col_length.
    destruct (am_cols_spec (link_wld_inertia li) (l_mass li) (v3sub (b_wcom (l_body li)) p) aa la 0 o m v) as (m' & A & B & C); try lia.
    exists m'. split; [exact A|]. split; [lia|]. rewrite C, Nat.add_0_r.
    rewrite (axis_sum_lin (m3v (link_wld_inertia li)) aa _ (lin3_m3v _)).
    rewrite (axis_sum_lin (fun s => v3scale (l_mass li) (v3cross (v3sub (b_wcom (l_body li)) p) s)) la _ (lin3_comp _ _ (lin3_scale _) (lin3_cross _))).
    rewrite <- (axis_sum_firstn aa), <- (axis_sum_firstn la), LA, LB, EV. reflexivity.
  - exists m. unfold angc, linc.
    destruct (joint_ang_axes (l_joint l) (l_frame l)) eqn:EA; [|pose proof (ang_axes_length (l_joint l) (l_frame l)) as G; rewrite EA, HO in G; discriminate].
    pose proof (link_lin_col_length (b_wcom (l_body li)) l) as G. rewrite HO in G. destruct (link_lin_col l (b_wcom (l_body li))); [|discriminate].
    cbn [am_cols axis_sum]. split; [reflexivity|]. split; [exact LM|]. rewrite v3cross_0_r, (lin3_zero _ (lin3_m3v _)). vring.
Qed.
Lemma link_am_spec i li p m : length m = length v -> nth_error h i = Some li ->
  exists J, link_am_jacobi' c i p m = Some J /\ length J = length v /\ jmul J v = v3add (jmul m v) (link_ang_momentum p li).
Proof.
  intros LM Hl. destruct (st_lineage i (nth_lt _ _ _ Hl)) as (t & A & B & C & D). pose proof S as (W & P & FR & _).
  unfold link_am_jacobi'. fold h. unfold obind. rewrite Hl, (walk_root_fold _ h i t W A) by exact C.
  set (con := fun l => v3add (m3v (link_wld_inertia li) (angc l)) (v3scale (l_mass li) (v3cross (v3sub (b_wcom (l_body li)) p) (linc (b_wcom (l_body li)) l)))).
  destruct (foldm_spec (link_am_body li p) h v (fun _ _ => True) (at_link h con) t B) with (m := m) as (J & J1 & J2 & J3); auto.
  { intros k Hk. destruct (nth_error h k) as [l|] eqn:Hk'; [|apply nth_error_None in Hk'; specialize (D k Hk); lia].
    exists l. split; [reflexivity|]. intros m0 LM0 _. destruct (am_body_spec li p l m0 (st_holds k l Hk') LM0) as (m' & G1 & G2 & G3).
    exists m'. split; [exact G1|]. split; [exact G2|]. split; [|auto]. unfold at_link. rewrite Hk'. exact G3. }
  exists J. split; [exact J1|]. split; [exact J2|]. rewrite J3. f_equal.
  destruct (st_vel (b_wcom (l_body li)) i t li A Hl) as [VA VL].
  assert (SP : v3sum (map (at_link h con) t) = v3add (m3v (link_wld_inertia li) (v3sum (map (at_link h angc) t)))
     (v3scale (l_mass li) (v3cross (v3sub (b_wcom (l_body li)) p) (v3sum (map (at_link h (linc (b_wcom (l_body li)))) t))))).
  { rewrite (lin3_sum _ _ (lin3_m3v (link_wld_inertia li))), (lin3_sum _ _ (lin3_cross (v3sub (b_wcom (l_body li)) p))), (lin3_sum _ _ (lin3_scale (l_mass li))), !map_map.
    rewrite <- v3sum_map_add. f_equal. apply map_ext. intros k. unfold at_link. destruct (nth_error h k) as [l|]; [reflexivity|].
    rewrite v3cross_0_r, (lin3_zero _ (lin3_m3v _)). vring. }
  rewrite SP, <- VA, <- VL, (proj1 (st_com_vel i li Hl)). unfold link_ang_momentum.
  destruct (FR i li Hl) as (_ & WC & _). rewrite WC.
  assert (GI : m3v (link_wld_inertia li) (world_angvel li) = m3v (fatt (l_frame li)) (m3v (mp_inertia (b_mp (l_body li))) (vang (l_vel li)))).
  { unfold link_wld_inertia, world_angvel. unfold m3rot. rewrite !m3mul_v, <- m3tv_tr, (rot_tv_v _ _ (proj2 (st_rigid i li Hl))). reflexivity. }
  rewrite GI. match goal with |- v3add ?a ?b = _ => generalize a b end. vring.
Qed.
Lemma am_loop_spec p t : forall pre m, h = pre ++ t -> length m = length v ->
  exists J, am_jacobi_loop c (length pre) (length t) p m = Some J /\ length J = length v /\
    jmul J v = v3add (jmul m v) (v3sum (map (link_ang_momentum p) t)).
Proof.
  induction t as [|l t IH]; intros pre m EH LM.
  - exists m. split; [reflexivity|]. split; [exact LM|]. unfold v3sum. cbn [map fold_right]. vring.
  - assert (Hl : nth_error h (length pre) = Some l) by (rewrite EH; apply nth_app_len).
    destruct (link_am_spec (length pre) l p m LM Hl) as (m1 & A1 & B1 & C1). destruct (IH (pre ++ [l]) m1) as (J & A & B & C); auto.
    { rewrite <- app_assoc. exact EH. }
    rewrite app_length, Nat.add_1_r in A. cbn [am_jacobi_loop length]. unfold obind. rewrite A1. exists J. split; [exact A|]. split; [exact B|].
    rewrite C, C1. unfold v3sum. cbn [map fold_right]. fold (v3sum (map (link_ang_momentum p) t)). generalize (link_ang_momentum p l). vring.
Qed.
Lemma am_spec p m : length m = length v ->
  exists J, am_jacobi c p m = Some J /\ length J = length v /\ jmul J v = ang_momentum h p.
Proof.
  intros LM. destruct (am_loop_spec p h [] (jzero m) eq_refl) as (J & A & B & C); [now rewrite jzero_length|].
  exists J. split; [exact A|]. split; [exact B|]. rewrite C, jmul_zero. unfold ang_momentum. vring.
Qed.
Lemma chain_am_spec p : chain_am c p = ang_momentum h p.
Proof.
  unfold chain_am, ang_momentum. fold h.
  assert (G : forall t a, (forall l, In l t -> m3v (fatt (l_frame l)) (body_am (l_body l) (xforminv (l_frame l) p)) = link_ang_momentum p l) ->
    fold_left (fun am l => v3add am (m3v (fatt (l_frame l)) (body_am (l_body l) (xforminv (l_frame l) p)))) t a =
    v3add a (v3sum (map (link_ang_momentum p) t))).
  { induction t as [|l t IH]; intros a H; [unfold v3sum; cbn [map fold_left fold_right]; vring|].
    cbn [fold_left]. rewrite IH by (intros; apply H; now right). rewrite (H l (or_introl eq_refl)). unfold v3sum. cbn [map fold_right].
    fold (v3sum (map (link_ang_momentum p) t)). generalize (link_ang_momentum p l). vring. }
  rewrite G; [vring|]. intros l Hin. apply In_nth_error in Hin as (i & Hl).
  pose proof S as (_ & _ & _ & VR & _). destruct (VR i l Hl) as (CV & _). pose proof (proj2 (st_rigid i l Hl)) as R.
  unfold link_ang_momentum, body_am, world_pointvel, l_com, l_mass, xforminv, xform in *. rewrite CV. fold (l_vel l).
  rewrite m3v_add_r, m3v_scale_r, (rot_cross _ _ _ R).
  rewrite m3v_sub_r, (rot_v_tv _ _ R). f_equal. f_equal. f_equal. vring.
Qed.
End State.
End Jac.

(** ** From API calls to the state above *)
Section Steps.
Context {F : Type} {N : Num F} {L : NumLaws F N} {E : Ext F} {X : ExtLaws F N E}.
Add Field FField4 : num_field.
Notation lk := (link F).
Notation jac := (list (vec3 F)).

(** What the Jacobians depend on. *)
Definition same_geom (l l' : lk) : Prop :=
  l_parent l' = l_parent l /\ l_offset l' = l_offset l /\ l_frame l' = l_frame l /\ b_wcom (l_body l') = b_wcom (l_body l) /\
  b_mp (l_body l') = b_mp (l_body l) /\
  (forall f, joint_ang_axes (l_joint l') f = joint_ang_axes (l_joint l) f) /\ (forall f, joint_lin_axes (l_joint l') f = joint_lin_axes (l_joint l) f).
Definition geom (h h' : list lk) : Prop := Forall2 same_geom h h'.

Lemma geom_nth (h h' : list lk) i : geom h h' ->
  (nth_error h i = None /\ nth_error h' i = None) \/ exists l l', nth_error h i = Some l /\ nth_error h' i = Some l' /\ same_geom l l'.
Proof.
  intros G. revert i. induction G as [|l l' h h' S G IH]; intros [|i]; cbn; auto. right. eauto.
Qed.
Lemma geom_length (h h' : list lk) : geom h h' -> length h = length h'.
Proof. induction 1; cbn; auto. Qed.
Definition body_geom (body body' : lk -> jac -> option jac) : Prop := forall l l' m, same_geom l l' -> body l m = body' l' m.
Lemma walk_root_ext body body' (h h' : list lk) : geom h h' -> body_geom body body' ->
  forall fuel i m, walk_root body fuel h i m = walk_root body' fuel h' i m.
Proof.
  intros G B. induction fuel as [|k IH]; intros i m; [reflexivity|]. cbn [walk_root].
  destruct (geom_nth h h' i G) as [[-> ->]|(l & l' & -> & -> & S)]; [reflexivity|]. cbn [obind]. unfold obind. rewrite (B l l' m S).
  destruct (body' l' m); auto. destruct (Nat.eqb i 0); auto. rewrite (proj1 S). destruct (l_parent l); auto.
Qed.
Lemma walk_root_stop_ext body body' stop (h h' : list lk) : geom h h' -> body_geom body body' ->
  forall fuel i m, walk_root_stop body stop fuel h i m = walk_root_stop body' stop fuel h' i m.
Proof.
  intros G B. induction fuel as [|k IH]; intros i m; [reflexivity|]. cbn [walk_root_stop]. destruct (Nat.eqb i stop); auto.
  destruct (geom_nth h h' i G) as [[-> ->]|(l & l' & -> & -> & S)]; [reflexivity|]. cbn [obind]. unfold obind. rewrite (B l l' m S).
  destruct (body' l' m); auto. destruct (Nat.eqb i 0); auto. rewrite (proj1 S). destruct (l_parent l); auto.
Qed.
Lemma walk_stop_ext body body' stop (h h' : list lk) : geom h h' -> body_geom body body' ->
  forall fuel i m, walk_stop body stop fuel h i m = walk_stop body' stop fuel h' i m.
Proof.
  intros G B. induction fuel as [|k IH]; intros i m; [reflexivity|]. cbn [walk_stop]. destruct (Nat.eqb i 0); auto.
  destruct (match stop with Some s => Nat.eqb i s | None => false end); auto.
  destruct (geom_nth h h' i G) as [[-> ->]|(l & l' & -> & -> & S)]; [reflexivity|]. cbn [obind]. unfold obind. rewrite (B l l' m S).
  destruct (body' l' m); auto. rewrite (proj1 S). destruct (l_parent l); auto.
Qed.
Lemma ang_cols_geom op : body_geom (ang_cols op) (ang_cols op).
Proof. intros l l' m (A & B & C & D & M & H & G). unfold ang_cols. now rewrite B, C, H. Qed.
Lemma link_lin_col_geom (l l' : lk) p : same_geom l l' -> link_lin_col l' p = link_lin_col l p.
Proof. intros (A & B & C & D & M & H & G). unfold link_lin_col. now rewrite C, H, G. Qed.
Lemma lin_cols_geom op p : body_geom (lin_cols op p) (lin_cols op p).
Proof. intros l l' m S. unfold lin_cols. rewrite (link_lin_col_geom l l' p S). destruct S as (_ & -> & _). reflexivity. Qed.
Lemma am_body_geom (li li' : lk) p : same_geom li li' -> body_geom (link_am_body li p) (link_am_body li' p).
Proof.
  intros (_ & _ & C1 & D1 & M1 & _) l l' m S. unfold link_am_body, link_wld_inertia, l_mass. rewrite C1, D1, M1, (link_lin_col_geom l l' _ S).
  destruct S as (_ & B & C & _ & _ & H & _). now rewrite B, C, H.
Qed.
Section Ext.
Context (c c' : chain F) (G : geom (c_links c) (c_links c')) (M : c_mass c' = c_mass c).
Lemma fuel_ext : c_fuel c' = c_fuel c. Proof. unfold c_fuel. now rewrite (geom_length _ _ G). Qed.
Lemma wld_ang_ext i m : wld_ang_jacobi c' i m = wld_ang_jacobi c i m.
Proof. unfold wld_ang_jacobi. rewrite fuel_ext. symmetry. apply walk_root_ext; [exact G|apply ang_cols_geom]. Qed.
Lemma wld_lin_ext i p m : wld_lin_jacobi c' i p m = wld_lin_jacobi c i p m.
Proof.
  unfold wld_lin_jacobi. rewrite fuel_ext. unfold obind. destruct (geom_nth _ _ i G) as [[-> ->]|(l & l' & -> & -> & S)]; [reflexivity|].
  pose proof S as (_ & _ & -> & _). symmetry. apply walk_root_ext; [exact G|apply lin_cols_geom].
Qed.
Lemma l2l_ang_ext i j m : link_to_link_ang_jacobi c' i j m = link_to_link_ang_jacobi c i j m.
Proof.
  unfold link_to_link_ang_jacobi. rewrite fuel_ext, (walk_stop_ext _ _ _ _ _ G (ang_cols_geom op_set)). unfold obind.
  destruct (walk_stop _ _ _ (c_links c') _ _) as [[r b]|]; auto. cbn [fst snd]. destruct b; auto.
  now rewrite (walk_stop_ext _ _ _ _ _ G (ang_cols_geom op_sub)).
Qed.
Lemma l2l_lin_ext i j p m : link_to_link_lin_jacobi c' i j p m = link_to_link_lin_jacobi c i j p m.
Proof.
  unfold link_to_link_lin_jacobi. rewrite fuel_ext. unfold obind. destruct (geom_nth _ _ j G) as [[-> ->]|(l & l' & -> & -> & S)]; [reflexivity|].
  pose proof S as (_ & _ & -> & _). rewrite (walk_root_stop_ext _ _ _ _ _ G (lin_cols_geom op_set _)).
  destruct (walk_root_stop _ _ _ (c_links c') _ _) as [[r b]|]; auto. cbn [fst snd]. destruct b; auto.
  now rewrite (walk_root_ext _ _ _ _ G (lin_cols_geom op_sub _)).
Qed.
Lemma com_ext m : com_jacobi c' m = com_jacobi c m.
Proof.
  unfold com_jacobi. generalize (jzero m). clear m. generalize 0.
  assert (EX : forall h h', geom h h' -> forall i m, com_jacobi_loop c' i h' m = com_jacobi_loop c i h m).
  { induction 1 as [|l l' h h' S GH IH]; intros i m; [reflexivity|]. cbn [com_jacobi_loop]. rewrite fuel_ext, M.
    pose proof S as (_ & _ & _ & D & P & _). unfold l_mass. rewrite D, P. unfold obind.
    rewrite (walk_root_ext _ _ _ _ G (lin_cols_geom (op_cat _) _)).
    match goal with |- match ?x with _ => _ end = _ => destruct x end; auto. }
  intros. now apply EX.
Qed.
Lemma link_am_ext i p m : link_am_jacobi' c' i p m = link_am_jacobi' c i p m.
Proof.
  unfold link_am_jacobi'. rewrite fuel_ext. unfold obind. destruct (geom_nth _ _ i G) as [[-> ->]|(l & l' & -> & -> & S)]; [reflexivity|].
  symmetry. apply walk_root_ext; [exact G|]. now apply am_body_geom.
Qed.
Lemma am_ext p m : am_jacobi c' p m = am_jacobi c p m.
Proof.
  unfold am_jacobi. rewrite <- (geom_length _ _ G). generalize (jzero m), 0. generalize (length (c_links c)).
  induction n as [|n IH]; intros l i; [reflexivity|]. cbn [am_jacobi_loop]. rewrite link_am_ext. unfold obind. destruct (link_am_jacobi' c i p l); auto.
Qed.
End Ext.

(** Setting joint velocities leaves displacement and attitude alone. *)
Lemma set_vel_geom (j j' : joint F) l : joint_set_vel j l = Some j' ->
  (forall f, joint_ang_axes j' f = joint_ang_axes j f) /\ (forall f, joint_lin_axes j' f = joint_lin_axes j f) /\ (forall f, joint_xform j' f = joint_xform j f).
Proof. intros H. destruct j; cbn in H; rd_inv H; injection H as <-; repeat split. Qed.
Lemma set_acc_geom (j j' : joint F) l : joint_set_acc j l = Some j' ->
  (forall f, joint_ang_axes j' f = joint_ang_axes j f) /\ (forall f, joint_lin_axes j' f = joint_lin_axes j f) /\ (forall f, joint_xform j' f = joint_xform j f).
Proof. intros H. destruct j; cbn in H; rd_inv H; injection H as <-; repeat split. Qed.

(** Everything but the joint is kept, and the joint keeps its geometry. *)
Definition vel_set (v : list F) (l l' : lk) : Prop :=
  same_geom l l' /\ l_adj l' = l_adj l /\ l_org l' = l_org l /\ (forall f, joint_xform (l_joint l') f = joint_xform (l_joint l) f) /\ holds v l' /\
  same_refs l_parent l_child l_sibl l l'.
Lemma set_vel_links (h h' : list lk) v : placed 0 h -> total h = length v -> set_all joint_set_vel h v = Some h' -> Forall2 (vel_set v) h h'.
Proof.
  intros P TV A. destruct (set_all_spec joint_set_vel v h 0 set_vel_ok P) as (h1 & A1 & R1); [lia|]. assert (h1 = h') by congruence. subst h1.
  assert (PL : forall i l, nth_error h i = Some l -> match l_offset l with Some o => o + lsize l <= length v | None => lsize l = 0 end).
  { intros i l Hl. rewrite (placed_nth 0 h i l P Hl). destruct (Nat.ltb_spec 0 (lsize l)); [|lia].
    pose proof (total_firstn_S h i l Hl). pose proof (total_firstn_le h (S i)). lia. }
  clear - PL R1 L. revert PL. induction R1 as [|l l' h h' S R IH]; intros PL; constructor.
  - specialize (PL 0 l eq_refl). unfold set_rel in S. unfold vel_set, holds. destruct (l_offset l) as [o|] eqn:Ho.
    + destruct S as (j & J & ->). cbn [l_offset l_joint l_set_joint l_adj l_org l_parent l_child l_sibl]. rewrite Ho.
      destruct (set_vel_geom _ _ _ J) as (G1 & G2 & G3). pose proof (proj2 (set_vel_ok (F:=F)) _ _ _ J) as TY.
      split; [repeat split; auto|]. do 3 (split; [auto|]). split; [|repeat split].
      assert (SZ : joint_size j = joint_size (l_joint l)) by (unfold joint_size; now rewrite TY).
      rewrite SZ. split; [exact PL|]. symmetry. apply set_vel_get. exact J.
    + subst l'. split; [repeat split|]. do 3 (split; [auto|]). split; [rewrite Ho; exact PL|repeat split].
  - apply IH. intros i l0 H0. exact (PL (Datatypes.S i) l0 H0).
Qed.

Definition vel_pass (h h' : list lk) : Prop := length h' = length h /\
  forall i l, nth_error h i = Some l -> exists p l', nth_error h' i = Some l' /\ same_geom l l' /\ l_adj l' = l_adj l /\ l_org l' = l_org l /\ l_joint l' = l_joint l /\
    l_vel l' = joint_inc_vel (l_joint l) (xform6lin (l_adj l) p) /\ b_comvel (l_body l') = v3add (vlin (l_vel l')) (v3cross (vang (l_vel l')) (l_com l')) /\
    match l_parent l with None => p = v6zero | Some q => exists lq, nth_error h' q = Some lq /\ p = l_vel lq end.
Lemma vel_pass_vel (h h' : list lk) : processed_down upd_vel l_vel v6zero h h' -> vel_pass h h'.
Proof.
  intros [LE D]. split; [exact LE|]. intros i l Hl. destruct (D i l Hl) as (p & Hp & C). exists p, (upd_vel l p).
  split; [exact Hp|]. split; [repeat split|]. do 5 (split; [reflexivity|]). destruct (l_parent l); [exact C|apply C].
Qed.
Lemma vel_pass_rate g (h h' : list lk) : processed_down upd_rate (fun l => (l_vel l, l_acc l)) (v6zero, grav g) h h' -> vel_pass h h'.
Proof.
  intros [LE D]. split; [exact LE|]. intros i l Hl. destruct (D i l Hl) as (p & Hp & C). exists (fst p), (upd_rate l p).
  split; [exact Hp|]. split; [repeat split|]. do 5 (split; [reflexivity|]).
  destruct (l_parent l); [destruct C as (lq & Hq & ->); eauto|destruct C as [_ ->]; reflexivity].
Qed.
Lemma forall2_nth_eq {A B} (R : A -> B -> Prop) (l : list A) (m : list B) : length l = length m ->
  (forall i a, nth_error l i = Some a -> exists b, nth_error m i = Some b /\ R a b) -> Forall2 R l m.
Proof.
  revert m. induction l as [|a l IH]; intros [|b m] LE H; cbn in LE; try discriminate; constructor.
  - destruct (H 0 a eq_refl) as (b' & Hb & HR). cbn in Hb. injection Hb as ->. exact HR.
  - apply IH; [lia|]. intros i x Hx. exact (H (S i) x Hx).
Qed.
Lemma same_geom_trans (a b d : lk) : same_geom a b -> same_geom b d -> same_geom a d.
Proof.
  intros (A1 & A2 & A3 & A4 & A5 & A6 & A7) (B1 & B2 & B3 & B4 & B5 & B6 & B7).
  repeat split; try congruence.
Qed.
Lemma Forall2_len {A B} (R : A -> B -> Prop) l m : Forall2 R l m -> length l = length m. Proof. induction 1; cbn; auto. Qed.
Lemma Forall2_nth_r {A B} (R : A -> B -> Prop) l m : Forall2 R l m -> forall i b, nth_error m i = Some b -> exists a, nth_error l i = Some a /\ R a b.
Proof. induction 1; intros [|i] b' H'; cbn in *; try discriminate; eauto. injection H' as <-. eauto. Qed.
Lemma wf_of_refs (h h' : list lk) : Forall2 (same_refs l_parent l_child l_sibl) h h' -> well_formed h -> well_formed h'.
Proof.
  intros R [k T]. exists k. eapply well_formed_refs; [symmetry; eapply Forall2_len; eauto| |exact T].
  intros i l Hl. exact (Forall2_nth _ _ _ R i l Hl).
Qed.
Lemma Forall2_impl2 {A B} (R Q : A -> B -> Prop) l m : (forall a b, R a b -> Q a b) -> Forall2 R l m -> Forall2 Q l m.
Proof. intros H. induction 1; constructor; auto. Qed.

Lemma motion_state g (c c1 c3 : chain F) v : usable c -> length v = chain_joint_size c -> motion g c v c1 c3 ->
  geom (c_links c1) (c_links c3) /\ c_mass c3 = c_mass c1 /\ c_mass c1 = c_mass c /\ state_ok (c_links c3) v.
Proof.
  intros (W & O & JM & OR) LV (H1 & c2 & H2 & H3).
  destruct (C24_frame_pass c W) as (c1' & A1 & P1 & W1). assert (c1' = c1) by congruence. subst c1'.
  pose proof (pass_keeps _ _ P1) as K1. pose proof (frames_of_pass _ _ P1) as FR1.
  assert (LE1 : length (c_links c1) = length (c_links c)) by apply P1.
  assert (PL1 : placed 0 (c_links c1)).
  { apply offsets_placed in O. revert O. clear - P1 K1 LE1. generalize 0. generalize dependent (c_links c1). generalize dependent (c_links c).
    intros h h' PD K LE n. clear PD. revert n h' K LE. induction h as [|l t IH]; intros n [|l' t'] K LE O; cbn in LE; try discriminate; [exact O|].
    apply placed_cons in O as [A B]. destruct (K 0 l eq_refl) as (l1 & H & EJ & _ & _ & EO & _). cbn in H. injection H as <-.
    apply placed_cons. assert (SZ : lsize l' = lsize l) by (unfold lsize; now rewrite EJ). rewrite SZ, EO. split; [exact A|].
    apply IH; [intros i x Hx; exact (K (S i) x Hx)|lia|exact B]. }
  assert (TV : total (c_links c1) = length v).
  { rewrite LV, chain_joint_size_total. clear - P1 K1 LE1. generalize dependent (c_links c1). generalize dependent (c_links c).
    intros h h' PD K LE. clear PD. revert h' K LE. induction h as [|l t IH]; intros [|l' t'] K LE; cbn in LE; try discriminate; [reflexivity|].
    destruct (K 0 l eq_refl) as (l1 & H & EJ & _). cbn in H. injection H as <-.
    change (total (l' :: t')) with (lsize l' + total t'). change (total (l :: t)) with (lsize l + total t).
    rewrite (IH t'); [unfold lsize; now rewrite EJ|intros i x Hx; exact (K (S i) x Hx)|lia]. }
  unfold chain_set_joint_vel_all in H2. destruct (set_all joint_set_vel (c_links c1) v) as [h2|] eqn:A2; cbn in H2; [|discriminate]. injection H2 as <-.
  pose proof (set_vel_links _ _ v PL1 TV A2) as VS.
  assert (W2 : well_formed h2) by (eapply wf_of_refs; [|exact W1]; eapply Forall2_impl2; [|exact VS]; intros a b (_ & _ & _ & _ & _ & G); exact G).
  assert (VP : vel_pass h2 (c_links c3) /\ well_formed (c_links c3) /\ c_mass c3 = c_mass c1).
  { destruct H3 as [H3|H3].
    - destruct (C24_vel_pass (c_set_links h2 c1) W2) as (c3' & A3 & P3 & W3). assert (c3' = c3) by congruence. subst c3'. split; [now apply vel_pass_vel|]. split; [exact W3|].
      unfold chain_update_vel, chain_lift in H3. destruct (update_vel _ _ _ _) as [x|]; cbn in H3; [injection H3 as <-; reflexivity|discriminate].
    - destruct (C24_rate_pass g (c_set_links h2 c1) W2) as (c3' & A3 & P3 & W3). assert (c3' = c3) by congruence. subst c3'. split; [now apply (vel_pass_rate g)|]. split; [exact W3|].
      unfold chain_update_rate, chain_lift in H3. destruct (update_rate _ _ _ _) as [x|]; cbn in H3; [injection H3 as <-; reflexivity|discriminate]. }
  destruct VP as ((LE3 & V3) & W3 & M3).
  assert (LE2 : length h2 = length (c_links c1)) by (symmetry; eapply Forall2_len; eauto).
  (* pointwise relation between c1 and c3 *)
  assert (ALL : forall i l1, nth_error (c_links c1) i = Some l1 -> exists l2 l3 p, nth_error h2 i = Some l2 /\ nth_error (c_links c3) i = Some l3 /\
     vel_set v l1 l2 /\ same_geom l1 l3 /\ l_adj l3 = l_adj l1 /\ l_org l3 = l_org l1 /\ l_joint l3 = l_joint l2 /\
     l_vel l3 = joint_inc_vel (l_joint l3) (xform6lin (l_adj l3) p) /\ b_comvel (l_body l3) = v3add (vlin (l_vel l3)) (v3cross (vang (l_vel l3)) (l_com l3)) /\
     match l_parent l3 with None => p = v6zero | Some q => exists lq, nth_error (c_links c3) q = Some lq /\ p = l_vel lq end).
  { intros i l1 Hl1. destruct (Forall2_nth _ _ _ VS i l1 Hl1) as (l2 & Hl2 & VS2). destruct (V3 i l2 Hl2) as (p & l3 & Hl3 & SG & EA & EO & EJ & EV & EC & EP).
    exists l2, l3, p. pose proof VS2 as (SG2 & EA2 & EO2 & EX2 & HO2 & SR2).
    split; [exact Hl2|]. split; [exact Hl3|]. split; [exact VS2|]. split; [eapply same_geom_trans; eauto|]. split; [congruence|]. split; [congruence|]. split; [exact EJ|].
    split; [rewrite EJ, EA; exact EV|]. split; [exact EC|]. rewrite (proj1 SG). exact EP. }
  assert (CK1 : forall i l, nth_error (c_links c1) i = Some l -> cache_ok (l_joint l) /\ rigid (l_org l)).
  { intros i l1 Hl1. assert (Hi : i < length (c_links c)) by (rewrite <- LE1; eapply nth_lt; eauto).
    destruct (nth_error (c_links c) i) as [l|] eqn:Hl; [|apply nth_error_None in Hl; lia].
    destruct (K1 i l Hl) as (l1' & Hl1' & EJ & EO & _). assert (l1' = l1) by congruence. subst l1'. rewrite EJ, EO. split; [apply made_cache; eauto|eauto]. }
  assert (GE : geom (c_links c1) (c_links c3)).
  { apply forall2_nth_eq; [lia|]. intros i l1 Hl1. destruct (ALL i l1 Hl1) as (l2 & l3 & p & _ & Hl3 & _ & SG & _). eauto. }
  split; [exact GE|]. split; [exact M3|].
  split; [unfold chain_update_frame, chain_lift in H1; destruct (update_frame _ _ _ _); cbn in H1; [injection H1 as <-; reflexivity|discriminate]|].
  assert (INV : forall i l3, nth_error (c_links c3) i = Some l3 -> exists l1, nth_error (c_links c1) i = Some l1).
  { intros i l3 Hl3. destruct (nth_error (c_links c1) i) as [l1|] eqn:Hl1; [eauto|]. apply nth_error_None in Hl1. pose proof (nth_lt _ _ _ Hl3). lia. }
  split; [exact W3|]. split; [|split; [|split]].
  - assert (P2 : placed 0 h2).
    { destruct (set_all_spec joint_set_vel v (c_links c1) 0 set_vel_ok PL1) as (hh & AA & RR); [lia|]. assert (hh = h2) by congruence. subst hh.
      exact (proj1 (set_rel_placed _ v 0 _ _ set_vel_ok RR PL1)). }
    revert P2. clear - V3 LE3. generalize 0. generalize dependent (c_links c3). intros h3 LE V n. 
    assert (K : forall i l, nth_error h2 i = Some l -> exists l', nth_error h3 i = Some l' /\ lsize l' = lsize l /\ l_offset l' = l_offset l).
    { intros i l Hl. destruct (V i l Hl) as (p & l3 & Hl3 & SG & _ & _ & EJ & _). exists l3. split; [exact Hl3|]. split; [unfold lsize; now rewrite EJ|apply SG]. }
    clear V. revert n h3 LE K. induction h2 as [|l t IH]; intros n [|l' t'] LE K P; cbn in LE; try discriminate; [exact P|].
    apply placed_cons in P as [A B]. destruct (K 0 l eq_refl) as (l1 & H & SZ & EO). cbn in H. injection H as <-.
    apply placed_cons. rewrite SZ, EO. split; [exact A|]. apply IH; [lia|intros i x Hx; exact (K (S i) x Hx)|exact B].
  - intros i l3 Hl3. destruct (INV i l3 Hl3) as (l1 & Hl1). destruct (ALL i l1 Hl1) as (l2 & l3' & p & Hl2 & Hl3' & VS2 & SG & EA & EO & EJ & _).
    assert (l3' = l3) by congruence. subst l3'. destruct (FR1 i l1 Hl1) as (FA & FW & FP). destruct SG as (S1 & S2 & S3 & S4 & S5 & _).
    destruct VS2 as (_ & _ & _ & EX2 & _).
    split; [rewrite EA, FA, EJ, EO, EX2; reflexivity|]. unfold l_com in *. rewrite S3, S4, S5. split; [exact FW|]. rewrite S1, EA.
    destruct (l_parent l1) as [q|]; [|exact FP]. destruct FP as (lq & Hq & FP). destruct (ALL q lq Hq) as (_ & lq3 & _ & _ & Hq3 & _ & SGq & _).
    exists lq3. split; [exact Hq3|]. destruct SGq as (_ & _ & -> & _). exact FP.
  - intros i l3 Hl3. destruct (INV i l3 Hl3) as (l1 & Hl1). destruct (ALL i l1 Hl1) as (l2 & l3' & p & Hl2 & Hl3' & VS2 & SG & EA & EO & EJ & EV & EC & EP).
    assert (l3' = l3) by congruence. subst l3'. split; [exact EC|]. exists p. auto.
  - intros i l3 Hl3. destruct (INV i l3 Hl3) as (l1 & Hl1). destruct (ALL i l1 Hl1) as (l2 & l3' & p & Hl2 & Hl3' & VS2 & SG & EA & EO & EJ & _).
    assert (l3' = l3) by congruence. subst l3'. split.
    + destruct VS2 as (SG2 & _ & _ & _ & HO2 & _). unfold holds in *. destruct SG as (_ & S2 & _). destruct SG2 as (_ & G2 & _). rewrite S2, EJ. rewrite G2 in HO2. exact HO2.
    + assert (RG : forall i l, nth_error (c_links c1) i = Some l -> rigid (l_adj l) /\ rigid (l_frame l)).
      { intros k l Hl. destruct (wf_lineage (c_links c1) k W1 (nth_lt _ _ _ Hl)) as (t & LT & _).
        destruct (frames_rigid (c_links c1) (fun i l H => proj1 (CK1 i l H)) (fun i l H => proj2 (CK1 i l H)) FR1 k t LT) as (l' & Hl' & R1 & R2).
        assert (l' = l) by congruence. subst l'. auto. }
      destruct (RG i l1 Hl1) as [R1 R2]. destruct SG as (_ & _ & S3 & _). rewrite EA, S3. auto.
Qed.
Lemma motion_total g (c : chain F) v : usable c -> length v = chain_joint_size c -> exists c1 c3, motion g c v c1 c3.
Proof.
  intros (W & O & JM & OR) LV.
  destruct (C24_frame_pass c W) as (c1 & A1 & P1 & W1). exists c1. 
  assert (PL1 : placed 0 (c_links c1) /\ total (c_links c1) = length v).
  { pose proof (pass_keeps _ _ P1) as K1. assert (LE1 : length (c_links c1) = length (c_links c)) by apply P1.
    rewrite LV, chain_joint_size_total. apply offsets_placed in O. revert O. clear - P1 K1 LE1. generalize 0. generalize dependent (c_links c1). generalize dependent (c_links c).
    intros h h' PD K LE n. clear PD. revert n h' K LE. induction h as [|l t IH]; intros n [|l' t'] K LE O; cbn in LE; try discriminate; [split; [exact O|reflexivity]|].
    apply placed_cons in O as [A B]. destruct (K 0 l eq_refl) as (l1 & H & EJ & _ & _ & EO & _). cbn in H. injection H as <-.
    assert (SZ : lsize l' = lsize l) by (unfold lsize; now rewrite EJ).
    destruct (IH (n + lsize l) t') as [I1 I2]; [intros i x Hx; exact (K (S i) x Hx)|lia|exact B|].
    split; [apply placed_cons; rewrite SZ, EO; split; [exact A|exact I1]|].
    change (total (l' :: t')) with (lsize l' + total t'). change (total (l :: t)) with (lsize l + total t). lia. }
  destruct PL1 as [PL1 TV]. destruct (set_all_spec joint_set_vel v (c_links c1) 0 set_vel_ok PL1) as (h2 & A2 & _); [lia|].
  pose proof (set_vel_links _ _ v PL1 TV A2) as VS.
  assert (W2 : well_formed h2) by (eapply wf_of_refs; [|exact W1]; eapply Forall2_impl2; [|exact VS]; intros a b (_ & _ & _ & _ & _ & G); exact G).
  destruct (C24_rate_pass g (c_set_links h2 c1) W2) as (c3 & A3 & _). exists c3. split; [exact A1|]. exists (c_set_links h2 c1).
  unfold chain_set_joint_vel_all. rewrite A2. auto.
Qed.
Lemma com_scale (M : F) (f : lk -> vec3 F) (w : lk -> F) h : M <> n0 ->
  v3scale M (v3sum (map (fun l => v3scale (ndiv (w l) M) (f l)) h)) = v3sum (map (fun l => v3scale (w l) (f l)) h).
Proof.
  intros NZ. rewrite (lin3_sum _ _ (lin3_scale M)), map_map. f_equal. apply map_ext. intros l.
  destruct (f l) as [x y z]. vunfold. vsplit; field; exact NZ.
Qed.
(** Setting displacements keeps a chain usable. *)
Lemma run_app (a : list (jop F)) : forall j b, joint_run j (a ++ b) = obind (joint_run j a) (fun j' => joint_run j' b).
Proof. induction a as [|o a IH]; intros j b; cbn; [reflexivity|]. destruct (joint_step j o); cbn; auto. Qed.
Lemma made_step (j j' : joint F) o : made j -> joint_step j o = Some j' -> made j'.
Proof.
  intros (t & j0 & ops & A & R) S. exists t, j0, (ops ++ [o]). split; [exact A|]. rewrite run_app, R. cbn. now rewrite S.
Qed.
Lemma usable_set_dis (c c' : chain F) v : usable c -> length v = chain_joint_size c -> chain_set_joint_dis_all c v = Some c' ->
  usable c' /\ chain_joint_size c' = chain_joint_size c.
Proof.
  intros (W & O & JM & OR) LV A. apply offsets_placed in O. rewrite chain_joint_size_total in LV.
  destruct (set_all_spec joint_set_dis v (c_links c) 0 set_dis_ok O) as (h & A1 & R); [lia|].
  unfold chain_set_joint_dis_all in A. rewrite A1 in A. cbn in A. injection A as <-.
  destruct (set_rel_placed _ v 0 _ _ set_dis_ok R O) as [P T].
  split; [|rewrite !chain_joint_size_total; cbn [c_links c_set_links]; exact T]. split; [|split; [|split]]; cbn [c_links c_set_links].
  - eapply wf_of_refs; [|exact W]. eapply Forall2_impl2; [|exact R]. intros a b. unfold set_rel. destruct (l_offset a); [intros (j & _ & ->)|intros ->]; repeat split.
  - apply placed_offsets. exact P.
  - intros i l Hl. destruct (Forall2_nth_r _ _ _ R i l Hl) as (a & Ha & RR). unfold set_rel in RR. destruct (l_offset a); [|subst; eauto].
    destruct RR as (j & J & ->). eapply (made_step _ _ (OSetDis (skipn n v))); [exact (JM i a Ha)|exact J].
  - intros i l Hl. destruct (Forall2_nth_r _ _ _ R i l Hl) as (a & Ha & RR). unfold set_rel in RR. destruct (l_offset a); [|subst; eauto].
    destruct RR as (j & J & ->). exact (OR i a Ha).
Qed.
End Steps.
