(** * Gp_Properties: chain2gp draws the faces of the chain (C111). *)
From Coq Require Import String ZArith QArith Qcanon List Arith Lia Bool Field Permutation.
From Verif Require Import Conf_Q Num NumFacts Vec VecFacts Motor_Model Joint_Model Joint_Spec Body_Model Body_Proofs Tree Tree_Proofs Link_Model Link_Spec Link_Proofs Chain_Proofs Link_Properties Chain_Properties Kin_Spec Kin_Proofs Kin_Properties
  Ztk_Model Shape_Model ExtQ Shape_Properties Gp_Model.
Import ListNotations.

(** ** How gnuplot reads data *)
(** A point on each line; an empty line ends a row of points, a second one ends the surface. *)
Fixpoint surfaces {P} (rows : list (list P)) (row : list P) (ls : list (option P)) : list (list (list P)) :=
  match ls with
  | Some p :: t => surfaces rows (row ++ [p]) t
  | None :: t => match row, rows with
                 | [], [] => surfaces [] [] t
                 | [], _ => rows :: surfaces [] [] t
                 | _, _ => surfaces (rows ++ [row]) [] t
                 end
  | [] => match row, rows with [], [] => [] | [], _ => [rows] | _, _ => [rows ++ [row]] end
  end.

Section Gp.
Context {F : Type} {N : Num F} {L : NumLaws F N} {E : Ext F} {X : ExtLaws F N E} {SE : ShapeExt F}.
Local Ltac vring := intros; vdestruct; vunfold; vsplit; ring.
Add Field FFieldGp : num_field.
Notation tri := (vec3 F * vec3 F * vec3 F)%type.

(** Points of a surface of two rows of two points (interpolated along and across the rows), and of a triangle. *)
Local Open Scope num_scope.
Definition mix (t : F) (a b : vec3 F) : vec3 F := v3add (v3scale (1 - t) a) (v3scale t b).
Definition on_surface (s : list (list (vec3 F))) (x : vec3 F) : Prop :=
  match s with [[a; b]; [c; d]] => exists u t, 0 <= u /\ u <= 1 /\ 0 <= t /\ t <= 1 /\ x = mix u (mix t a b) (mix t c d) | _ => False end.
Definition in_triangle (t : tri) (x : vec3 F) : Prop :=
  let '(a, b, c) := t in exists p q r, 0 <= p /\ 0 <= q /\ 0 <= r /\ p + q + r = 1 /\ x = v3add (v3add (v3scale p a) (v3scale q b)) (v3scale r c).
(** A face of the chain, in the world. *)
Definition face_of (f : frame F) (s : shape F) (t : tri) : Prop :=
  match s with
  | Poly v fc => exists i j k a b c, In (i, j, k) fc /\ nth_error v i = Some a /\ nth_error v j = Some b /\ nth_error v k = Some c /\ t = (xform f a, xform f b, xform f c)
  | Prim _ => False
  end.
Definition face (arr : list (shape F)) (c : chain F) (t : tri) : Prop := exists l s, worn arr c l s /\ face_of (l_frame l) s t.
(** A polyhedron whose faces have the vertices they name. *)
Definition sound (s : shape F) : Prop := match s with Poly v fc => forall i j k, In (i, j, k) fc -> (i < length v /\ j < length v /\ k < length v)%nat | Prim _ => False end.
Definition face_num (s : shape F) : nat := match s with Poly _ fc => length fc | Prim _ => 0 end.
Definition faces_num (arr : list (shape F)) (c : chain F) : nat := list_sum (flat_map (fun l => map (fun i => match nth_error arr i with Some s => face_num s | None => 0%nat end) (b_shapes (l_body l))) (c_links c)).
Definition drawn (t : tri) : list (list (vec3 F)) := let '(a, b, c) := t in [[a; b]; [c; c]].

(** A surface with two equal corners is the triangle. *)
Lemma drawn_is_triangle (t : tri) x : on_surface (drawn t) x <-> in_triangle t x.
Proof.
  destruct t as [[a b] c]. cbn [drawn on_surface in_triangle]. split.
  - intros (u & t & U0 & U1 & T0 & T1 & ->). exists ((1 - u) * (1 - t)), ((1 - u) * t), u.
    assert (V0 : 0 <= 1 - u) by (exact (proj1 (nle_sub_iff u 1) U1)). assert (S0 : 0 <= 1 - t) by (exact (proj1 (nle_sub_iff t 1) T1)).
    split; [now apply nle_0_mul|]. split; [now apply nle_0_mul|]. split; [exact U0|]. split; [ring|]. unfold mix. clear - L. vring.
  - intros (p & q & r & P0 & Q0 & R0 & S1 & ->).
    assert (R1 : r <= 1) by (apply nle_sub_iff; replace (1 - r) with (p + q) by (rewrite <- S1; ring); now apply nle_0_add).
    destruct (nle_or_lt (p + q) 0) as [Z|Z].
    + assert (Z0 : p + q = 0) by (apply nle_antisym; [exact Z|now apply nle_0_add]). destruct (nadd_nonneg_eq_0 p q P0 Q0 Z0) as [-> ->]. exists 1, 0. repeat split; try apply nle_0_1; try apply nle_refl.
      replace r with (1 : F) by (rewrite <- S1; ring). unfold mix. clear - L. vring.
    + assert (NZ : p + q <> 0) by (intros K; rewrite K in Z; exact (nlt_irrefl _ Z)). exists r, (q / (p + q)). split; [exact R0|]. split; [exact R1|]. split; [now apply nle_0_div|]. split.
      * apply nle_sub_iff. replace (1 - q / (p + q)) with (p / (p + q)) by (field; exact NZ). now apply nle_0_div.
      * unfold mix. replace (1 - r) with (p + q) by (rewrite <- S1; ring). clear - L NZ. destruct a as [ax ay az], b as [bx bY bz], c as [cx cy cz]. unfold v3add, v3scale. cbn [vx vy vz]. f_equal; field; exact NZ.
Qed.

(** ** The output *)
Definition printed (ts : list tri) : list (option (vec3 F)) := flat_map (fun t => let '(a, b, c) := t in [Some a; Some b; None; Some c; Some c; None; None]) ts.
Lemma printed_read ts : surfaces [] [] (printed ts) = map drawn ts.
Proof. induction ts as [|[[a b] c] t IH]; [reflexivity|]. cbn -[printed]. change (printed ((a, b, c) :: t)) with ([Some a; Some b; None; Some c; Some c; None; None] ++ printed t). cbn. now rewrite IH. Qed.
Lemma gp_all_some {A} (g : A -> option (list (option (vec3 F)))) (n : A -> nat) (P : A -> tri -> Prop) l :
  (forall a, In a l -> exists ts, g a = Some (printed ts) /\ length ts = n a /\ forall t, In t ts <-> P a t) ->
  exists ts, gp_all g l = Some (printed ts) /\ length ts = list_sum (map n l) /\ forall t, In t ts <-> exists a, In a l /\ P a t.
Proof.
  induction l as [|a l IH]; intros H; [exists []; repeat split; [intros []|intros (? & [] & _)]|]. cbn [gp_all map list_sum]. destruct (H a (or_introl eq_refl)) as (ts & -> & N1 & T1). destruct IH as (us & -> & N2 & T2); [intros; apply H; now right|].
  exists (ts ++ us). split; [unfold printed; now rewrite flat_map_app|]. split; [rewrite app_length, N1, N2; reflexivity|]. intros t. rewrite in_app_iff, T1, T2. split.
  - intros [K|(b & B & K)]; [exists a; cbn; auto|exists b; cbn; auto].
  - intros (b & [<-|B] & K); [now left|right; eauto].
Qed.
Lemma gp_all_none {A} (g : A -> option (list (option (vec3 F)))) l a : In a l -> g a = None -> gp_all g l = None.
Proof. induction l as [|b l IH]; [intros []|]. intros [<-|I] Q; cbn [gp_all]; [now rewrite Q|]. rewrite (IH I Q). now destruct (g b). Qed.
Lemma list_sum_flat {A B} (n : B -> nat) (f : A -> list B) l : list_sum (map (fun a => list_sum (map n (f a))) l) = list_sum (flat_map (fun a => map n (f a)) l).
Proof. induction l as [|a l IH]; [reflexivity|]. cbn [map flat_map]. rewrite list_sum_app, <- IH. reflexivity. Qed.
Lemma shape_printed f s : sound s -> exists ts, output_shape (shape_xform f s) = Some (printed ts) /\ length ts = face_num s /\ forall t, In t ts <-> face_of f s t.
Proof.
  destruct s as [v fc|]; [|intros []]. cbn [sound output_shape shape_xform face_num face_of]. intros S.
  destruct (gp_all_some (gp_face (map (xform f) v)) (fun _ => 1%nat) (fun x t => exists i j k a b c, x = (i, j, k) /\ nth_error v i = Some a /\ nth_error v j = Some b /\ nth_error v k = Some c /\ t = (xform f a, xform f b, xform f c)) fc) as (ts & A & B & C).
  - intros [[i j] k] I. destruct (S i j k I) as (Hi & Hj & Hk). cbn [gp_face]. apply nth_error_Some in Hi, Hj, Hk.
    destruct (nth_error v i) as [a|] eqn:Qi; [|congruence]. destruct (nth_error v j) as [b|] eqn:Qj; [|congruence]. destruct (nth_error v k) as [c|] eqn:Qk; [|congruence].
    rewrite (map_nth_error _ _ _ Qi), (map_nth_error _ _ _ Qj), (map_nth_error _ _ _ Qk). exists [(xform f a, xform f b, xform f c)]. split; [reflexivity|]. split; [reflexivity|]. intros t. split.
    + intros [<-|[]]. exists i, j, k, a, b, c. auto.
    + intros (i' & j' & k' & a' & b' & c' & Q & A1 & A2 & A3 & ->). injection Q as <- <- <-. left. congruence.
  - exists ts. split; [exact A|]. split; [rewrite B; clear; induction fc as [|x fc IH]; [reflexivity|]; change (S (list_sum (map (fun _ => 1%nat) fc)) = S (length fc)); now rewrite IH|]. intros t. rewrite C. split.
    + intros (x & I & i & j & k & a & b & c & -> & K). exists i, j, k, a, b, c. tauto.
    + intros (i & j & k & a & b & c & I & K). exists (i, j, k). split; [exact I|]. exists i, j, k, a, b, c. tauto.
Qed.

(** ** Theorems *)
(** The output, read as gnuplot reads it, is one surface for each face of each shape of each link, which is the triangle that the
    face is in the world. *)
Theorem C111_faces : forall arr (c : chain F), refers arr (c_links c) -> (forall l s, worn arr c l s -> sound s) ->
  exists out ts, chain2gp arr c = Some out /\ surfaces [] [] out = map drawn ts /\ length ts = faces_num arr c /\ (forall t, In t ts <-> face arr c t) /\ (forall t x, on_surface (drawn t) x <-> in_triangle t x).
Proof.
  intros arr c R S. unfold chain2gp.
  destruct (gp_all_some (gp_link arr) (fun l => list_sum (map (fun i => match nth_error arr i with Some s => face_num s | None => 0%nat end) (b_shapes (l_body l)))) (fun l t => exists i, In i (b_shapes (l_body l)) /\ exists s, nth_error arr i = Some s /\ face_of (l_frame l) s t) (c_links c)) as (ts & A & B & C).
  - intros l Hl. apply gp_all_some. intros i Hi. destruct (nth_error arr i) as [s|] eqn:Q; [|apply nth_error_None in Q; specialize (R l i Hl Hi); lia].
    destruct (shape_printed (l_frame l) s) as (ts & T1 & T2 & T3); [apply (S l); split; [exact Hl|now exists i]|]. exists ts. split; [exact T1|]. split; [exact T2|]. intros t. rewrite T3. split; [now exists s|]. intros (s' & Q' & K). congruence.
  - exists (printed ts), ts. split; [exact A|]. split; [apply printed_read|]. split; [rewrite B; unfold faces_num; now rewrite <- list_sum_flat|]. split; [|apply drawn_is_triangle]. intros t. rewrite C. unfold face, worn. split.
    + intros (l & Hl & i & Hi & s & Q & K). exists l, s. split; [split; [exact Hl|now exists i]|exact K].
    + intros (l & s & (Hl & i & Hi & Q) & K). exists l. split; [exact Hl|]. exists i. split; [exact Hi|]. now exists s.
Qed.
(** A chain placed elsewhere is drawn elsewhere. *)
Theorem C111_moved : forall (T : frame F) arr (c d c1 d1 : chain F), polyhedral arr -> well_formed (c_links c) -> joints_made (c_links c) -> well_formed (c_links d) -> joints_made (c_links d) ->
  Forall2 (displaced T) (c_links c) (c_links d) -> chain_update_frame c = Some c1 -> chain_update_frame d = Some d1 -> chain2gp arr d1 = option_map (map (option_map (xform T))) (chain2gp arr c1).
Proof.
  intros T arr c d c1 d1 PH WC JC WD JD D A B. pose proof (frames_displaced T c d c1 d1 WC JC WD JD D A B) as R. unfold chain2gp. clear - L PH R.
  assert (AL : forall A (g g' : A -> option (list (option (vec3 F)))) l, (forall a, g' a = option_map (map (option_map (xform T))) (g a)) -> gp_all g' l = option_map (map (option_map (xform T))) (gp_all g l)).
  { intros A0 g g' l H. induction l as [|a l IH]; [reflexivity|]. cbn [gp_all]. rewrite H, IH. destruct (g a) as [x|]; [|reflexivity]. destruct (gp_all g l); [|reflexivity]. cbn [option_map]. now rewrite map_app. }
  induction R as [|a b h k [Q1 Q2] R IH]; [reflexivity|]. cbn [gp_all]. rewrite IH. assert (LK : gp_link arr b = option_map (map (option_map (xform T))) (gp_link arr a)).
  { unfold gp_link. rewrite Q1, Q2. apply AL. intros i. destruct (nth_error arr i) as [s|] eqn:Q; [|reflexivity]. destruct (PH s (nth_error_In _ _ Q)) as (v & fc & ->). cbn [shape_xform output_shape]. apply AL. intros [[i1 i2] i3]. cbn [gp_face].
    rewrite !nth_error_map. destruct (nth_error v i1), (nth_error v i2), (nth_error v i3); cbn [option_map]; try reflexivity. rewrite !xform_cascade. reflexivity. }
  rewrite LK. destruct (gp_link arr a) as [x|]; [|reflexivity]. destruct (gp_all (gp_link arr) h); [|reflexivity]. cbn [option_map]. now rewrite map_app.
Qed.
(** A shape that is no polyhedron is taken for one. *)
Theorem C111_other_shapes : forall arr (c : chain F) l p, worn arr c l (Prim p) -> chain2gp arr c = None.
Proof. intros arr c l p (Hl & i & Hi & Q). apply (gp_all_none _ _ l Hl). apply (gp_all_none _ _ i Hi). now rewrite Q. Qed.
End Gp.

(** ** Concrete cases *)
#[local] Existing Instance Shape_Qc.
Definition plates : list (shape Qc) := [Poly [pt 1 0 0; pt 0 1 0; pt 0 0 1; pt 2 2 2] [(0, 1, 2); (1, 0, 3)]%nat; Poly [pt 1 0 0; pt 0 0 0; pt 0 0 3] [(2, 1, 0)]%nat].
Definition plotted (arr : list (shape Qc)) (c : chain Qc) := obind (chain_update_frame c) (chain2gp arr).
Example C111_ex : option_map (surfaces [] []) (plotted plates (pair_chain fid)) = Some [[[pt 1 0 0; pt 0 1 0]; [pt 0 0 1; pt 0 0 1]]; [[pt 0 1 0; pt 1 0 0]; [pt 2 2 2; pt 2 2 2]]; [[pt 1 1 3; pt 1 1 0]; [pt 1 2 0; pt 1 2 0]]].
Proof. vm_compute. reflexivity. Qed.
Example C111_ex_hypotheses c1 : chain_update_frame (pair_chain fid) = Some c1 -> refers plates (c_links c1) /\ (forall l s, worn plates c1 l s -> sound s) /\ polyhedral plates.
Proof.
  intros A. split; [exact (pair_refers plates fid c1 eq_refl A)|]. split.
  - intros l s (_ & i & _ & Q). destruct i as [|[|i]]; [injection Q as <-|injection Q as <-|destruct i; discriminate Q]; intros i j k H; cbn in H |- *; repeat destruct H as [H|H]; try injection H as <- <- <-; try contradiction; lia.
  - intros s [<-|[<-|[]]]; eexists; eexists; reflexivity.
Qed.
(** A chain with a rod: undefined. *)
Definition with_rod : list (shape Qc) := [Poly [pt 1 0 0] []; Prim (Some (pt 0 0 0, pt 2 0 0))].
Theorem C111_primitive_refuted : exists (arr : list (shape Qc)) c1, chain_update_frame (pair_chain fid) = Some c1 /\ refers arr (c_links c1) /\ (exists v, chain_vert_list arr c1 = Some (Some v)) /\ chain2gp arr c1 = None.
Proof.
  destruct (C24_frame_pass _ (pair_wf fid)) as (c1 & A & _). exists with_rod, c1. split; [exact A|]. split; [exact (pair_refers with_rod fid c1 eq_refl A)|].
  assert (P : plotted with_rod (pair_chain fid) = None) by (vm_compute; reflexivity). unfold plotted in P. rewrite A in P. split; [|exact P].
  assert (V : seen with_rod (pair_chain fid) = Some (Some [pt 1 0 0; pt 1 1 0; pt 1 3 0])) by (vm_compute; reflexivity). unfold seen in V. rewrite A in V. eexists. exact V.
Qed.

Print Assumptions C111_faces.
Print Assumptions C111_moved.
Print Assumptions C111_other_shapes.
Print Assumptions C111_primitive_refuted.
