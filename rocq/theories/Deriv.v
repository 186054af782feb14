(** * Deriv: time derivatives of vectors, matrices and rigid frames over the reals
    (specification of "velocity" and "acceleration" for C04, C21, C36, C37). *)

From Coq Require Import List Reals Lra.
From Verif Require Import Num NumFacts Vec VecFacts.
Local Open Scope R_scope.

Definition D1 (f : R -> R) (t d : R) : Prop := derivable_pt_lim f t d.
Definition D3 (f : R -> vec3 R) (t : R) (d : vec3 R) : Prop :=
  D1 (fun s => vx (f s)) t (vx d) /\ D1 (fun s => vy (f s)) t (vy d) /\ D1 (fun s => vz (f s)) t (vz d).
Definition DM (f : R -> mat3 R) (t : R) (d : mat3 R) : Prop :=
  D3 (fun s => mc0 (f s)) t (mc0 d) /\ D3 (fun s => mc1 (f s)) t (mc1 d) /\ D3 (fun s => mc2 (f s)) t (mc2 d).

(** [v] is the twist, in the coordinates of the moving frame, of the moving frame X:
    pos' = R v_lin and R' = R [v_ang x]. *)
Definition has_twist (X : R -> frame R) (t : R) (v : vec6 R) : Prop :=
  D3 (fun s => fpos (X s)) t (m3v (fatt (X t)) (vlin v)) /\
  DM (fun s => fatt (X s)) t (m3mul (fatt (X t)) (m3skew (vang v))).
(** [a] is the acceleration, in the coordinates of the moving frame: derivative of the world-frame
    velocity of the origin and of the world-frame angular velocity. *)
Definition has_acc (X : R -> frame R) (v : R -> vec6 R) (t : R) (a : vec6 R) : Prop :=
  D3 (fun s => m3v (fatt (X s)) (vlin (v s))) t (m3v (fatt (X t)) (vlin a)) /\
  D3 (fun s => m3v (fatt (X s)) (vang (v s))) t (m3v (fatt (X t)) (vang a)).

(** ** Rules *)
Lemma D1_eq f t d d' : D1 f t d -> d = d' -> D1 f t d'.
Proof. now intros H <-. Qed.
Lemma D1_ext f g t d : (forall s, f s = g s) -> D1 f t d -> D1 g t d.
Proof.
  intros E H eps Heps. destruct (H eps Heps) as [del Hd]. exists del. intros h H1 H2.
  rewrite <- !E. now apply Hd.
Qed.
Lemma D1_const c t : D1 (fun _ => c) t 0. Proof. apply derivable_pt_lim_const. Qed.
Lemma D1_add f g t a b : D1 f t a -> D1 g t b -> D1 (fun s => f s + g s) t (a + b).
Proof. apply derivable_pt_lim_plus. Qed.
Lemma D1_sub f g t a b : D1 f t a -> D1 g t b -> D1 (fun s => f s - g s) t (a - b).
Proof. apply derivable_pt_lim_minus. Qed.
Lemma D1_opp f t a : D1 f t a -> D1 (fun s => - f s) t (- a).
Proof. apply derivable_pt_lim_opp. Qed.
Lemma D1_mul f g t a b : D1 f t a -> D1 g t b -> D1 (fun s => f s * g s) t (a * g t + f t * b).
Proof. apply derivable_pt_lim_mult. Qed.
Lemma D1_sin f t a : D1 f t a -> D1 (fun s => sin (f s)) t (cos (f t) * a).
Proof. intros H. apply (derivable_pt_lim_comp f sin); [exact H | apply derivable_pt_lim_sin]. Qed.
Lemma D1_cos f t a : D1 f t a -> D1 (fun s => cos (f s)) t (- sin (f t) * a).
Proof. intros H. apply (derivable_pt_lim_comp f cos); [exact H | apply derivable_pt_lim_cos]. Qed.
Lemma D1_uniq f t a b : D1 f t a -> D1 f t b -> a = b.
Proof. apply uniqueness_limite. Qed.

Ltac dstep :=
  match goal with
  | H : D1 ?f ?t _ |- D1 ?f ?t _ => exact H
  | |- D1 (fun _ => ?c) _ _ => exact (D1_const c _)
  | |- D1 (fun s => Rplus _ _) _ _ => eapply D1_add
  | |- D1 (fun s => Rminus _ _) _ _ => eapply D1_sub
  | |- D1 (fun s => Rmult _ _) _ _ => eapply D1_mul
  | |- D1 (fun s => Ropp _) _ _ => eapply D1_opp
  | |- D1 (fun s => sin _) _ _ => eapply D1_sin
  | |- D1 (fun s => cos _) _ _ => eapply D1_cos
  | |- D1 sin _ _ => apply derivable_pt_lim_sin
  | |- D1 cos _ _ => apply derivable_pt_lim_cos
  | H : D1 _ ?t _ |- D1 _ ?t _ => exact H
  end.
Ltac rcomp := vunfold; cbn [n0 n1 nadd nmul nsub nopp Num_R].
Ltac rcomp_in H := unfold D3, DM in H; revert H; vunfold; cbn [n0 n1 nadd nmul nsub nopp Num_R]; intros H.
Ltac dsolve := eapply D1_eq; [ repeat dstep | ].

Lemma D3_ext f g t d : (forall s, f s = g s) -> D3 f t d -> D3 g t d.
Proof. intros E (A & B & C). repeat split; (eapply D1_ext; [|eassumption]); intros s; cbn; now rewrite E. Qed.
Lemma D3_eq f t d d' : D3 f t d -> d = d' -> D3 f t d'. Proof. now intros H <-. Qed.
Lemma DM_ext f g t d : (forall s, f s = g s) -> DM f t d -> DM g t d.
Proof. intros E (A & B & C). repeat split; (eapply D3_ext; [|eassumption]); intros s; cbn; now rewrite E. Qed.
Lemma DM_eq f t d d' : DM f t d -> d = d' -> DM f t d'. Proof. now intros H <-. Qed.
Lemma D3_uniq f t a b : D3 f t a -> D3 f t b -> a = b.
Proof.
  intros (A & B & C) (A' & B' & C'). destruct a, b; cbn in *.
  f_equal; eapply D1_uniq; eassumption.
Qed.
Lemma D3_const c t : D3 (fun _ => c) t v3zero.
Proof. repeat split; apply D1_const. Qed.
Lemma DM_const c t : DM (fun _ => c) t m3zero.
Proof. repeat split; apply D1_const. Qed.
Lemma D3_add f g t a b : D3 f t a -> D3 g t b -> D3 (fun s => v3add (f s) (g s)) t (v3add a b).
Proof. intros (A & B & C) (A' & B' & C'). repeat split; cbn; now apply D1_add. Qed.
Lemma D3_sub f g t a b : D3 f t a -> D3 g t b -> D3 (fun s => v3sub (f s) (g s)) t (v3sub a b).
Proof. intros (A & B & C) (A' & B' & C'). repeat split; cbn; now apply D1_sub. Qed.
Lemma D3_scale f g t a b : D1 f t a -> D3 g t b ->
  D3 (fun s => v3scale (f s) (g s)) t (v3add (v3scale a (g t)) (v3scale (f t) b)).
Proof. intros H (A & B & C). repeat split; cbn; now apply (D1_mul f). Qed.
Lemma D1_dot f g t a b : D3 f t a -> D3 g t b ->
  D1 (fun s => v3dot (f s) (g s)) t (v3dot a (g t) + v3dot (f t) b).
Proof.
  intros (A & B & C) (A' & B' & C'). unfold v3dot. cbn [nadd nmul Num_R].
  eapply D1_eq; [apply D1_add; [apply D1_add|]; apply D1_mul; eassumption|]. cbn. ring.
Qed.
Lemma D3_cross f g t a b : D3 f t a -> D3 g t b ->
  D3 (fun s => v3cross (f s) (g s)) t (v3add (v3cross a (g t)) (v3cross (f t) b)).
Proof.
  intros (A & B & C) (A' & B' & C').
  repeat split; cbn [v3cross v3add vx vy vz nadd nmul nsub Num_R];
    (eapply D1_eq; [apply D1_sub; apply D1_mul; eassumption|]; cbn; ring).
Qed.
Lemma D3_mv m f t n a : DM m t n -> D3 f t a ->
  D3 (fun s => m3v (m s) (f s)) t (v3add (m3v n (f t)) (m3v (m t) a)).
Proof.
  intros ((A & B & C) & (A' & B' & C') & (A'' & B'' & C'')) (X & Y & Z).
  repeat split; cbn [m3v v3add v3scale vx vy vz nadd nmul Num_R];
    (eapply D1_eq; [apply D1_add; [apply D1_add|]; apply D1_mul; eassumption|]; cbn; ring).
Qed.
Lemma DM_mul m k t n l : DM m t n -> DM k t l ->
  DM (fun s => m3mul (m s) (k s)) t (m3add (m3mul n (k t)) (m3mul (m t) l)).
Proof. intros H (A & B & C). repeat split; cbn; apply D3_mv; assumption. Qed.
Lemma DM_tr m t n : DM m t n -> DM (fun s => m3tr (m s)) t (m3tr n).
Proof.
  intros ((A & B & C) & (A' & B' & C') & (A'' & B'' & C'')). repeat split; cbn; assumption.
Qed.
Lemma m3tv_m3tr (m : mat3 R) v : m3tv m v = m3v (m3tr m) v. Proof. apply m3tv_tr. Qed.
Lemma D3_tv m f t n a : DM m t n -> D3 f t a ->
  D3 (fun s => m3tv (m s) (f s)) t (v3add (m3tv n (f t)) (m3tv (m t) a)).
Proof.
  intros A B. rewrite !m3tv_tr.
  apply D3_ext with (f := fun s => m3v (m3tr (m s)) (f s)); [intros; now rewrite m3tv_tr|].
  apply (D3_mv (fun s => m3tr (m s))); [now apply DM_tr | assumption].
Qed.

(** ** Moving frames *)
Lemma twist_const (f : frame R) t : has_twist (fun _ => f) t v6zero.
Proof.
  split.
  - eapply D3_eq; [apply D3_const|]. symmetry. apply m3v_0_r.
  - eapply DM_eq; [apply DM_const|]. destruct f as [p m]. vdestruct. rcomp. vsplit; ring.
Qed.
(** Composition of motions is the rule used by rkLinkUpdateVel. *)
Lemma m3skew_rot (r : mat3 R) w : rotation r -> m3mul (m3skew w) r = m3mul r (m3skew (m3tv r w)).
Proof.
  intros H. apply m3_ext_v. intros v. rewrite !m3mul_v, !v3skew_v.
  rewrite (rot_cross r) by exact H. now rewrite rot_v_tv by exact H.
Qed.
Lemma twist_cascade X Y t v w : rigid (Y t) -> has_twist X t v -> has_twist Y t w ->
  has_twist (fun s => fcascade (X s) (Y s)) t (v6add (xform6lin (Y t) v) w).
Proof.
  intros RY [Px Ax] [Py Ay]. split.
  - unfold fcascade, xform. cbn [fpos fatt].
    eapply D3_eq; [apply (D3_add (fun s => m3v (fatt (X s)) (fpos (Y s)))); [apply D3_mv; eassumption | eassumption]|].
    unfold xform6lin, m3tv6, v6linshift. cbn [v6add vlin vang].
    rewrite !m3mul_v, v3skew_v, !m3v_add_r.
    rewrite rot_v_tv by exact RY. rewrite m3v_add_r.
    generalize (m3v (fatt (X t)) (v3cross (vang v) (fpos (Y t)))) (m3v (fatt (X t)) (m3v (fatt (Y t)) (vlin w))) (m3v (fatt (X t)) (vlin v)).
    intros. vdestruct. rcomp. vsplit; ring.
  - unfold fcascade. cbn [fatt]. eapply DM_eq; [apply DM_mul; eassumption|].
    unfold xform6lin, m3tv6, v6linshift. cbn [v6add vlin vang].
    assert (S : forall a b : vec3 R, m3skew (v3add a b) = m3add (m3skew a) (m3skew b)).
    { intros. vdestruct. rcomp. vsplit; ring. }
    rewrite S, m3mul_add_r, <- !m3mul_assoc, <- (m3skew_rot (fatt (Y t))) by exact RY. reflexivity.
Qed.
(** World velocity of a point fixed in the moving frame. *)
Lemma twist_point X t v (p : vec3 R) : has_twist X t v ->
  D3 (fun s => xform (X s) p) t (m3v (fatt (X t)) (v3add (vlin v) (v3cross (vang v) p))).
Proof.
  intros [P A]. unfold xform.
  eapply D3_eq; [apply (D3_add (fun s => m3v (fatt (X s)) p)); [apply D3_mv; [eassumption | apply D3_const] | eassumption]|].
  rewrite m3mul_v, v3skew_v, m3v_0_r, v3add_0_r, m3v_add_r. apply v3add_comm.
Qed.
(** Derivative of a vector given by components in the moving frame. *)
Lemma twist_vec X t v f a : has_twist X t v -> D3 f t a ->
  D3 (fun s => m3v (fatt (X s)) (f s)) t (m3v (fatt (X t)) (v3add (v3cross (vang v) (f t)) a)).
Proof.
  intros [_ A] H. eapply D3_eq; [apply D3_mv; eassumption|]. now rewrite m3mul_v, v3skew_v, <- m3v_add_r.
Qed.
(** Conversely the components of a differentiable world vector are differentiable. *)
Lemma twist_comp X t v f a : (forall s, rigid (X s)) -> has_twist X t v ->
  D3 (fun s => m3v (fatt (X s)) (f s)) t (m3v (fatt (X t)) a) ->
  D3 f t (v3sub a (v3cross (vang v) (f t))).
Proof.
  intros RX [_ A] H.
  apply D3_ext with (f := fun s => m3tv (fatt (X s)) (m3v (fatt (X s)) (f s))); [intros s; apply rot_tv_v, RX|].
  eapply D3_eq; [apply D3_tv; eassumption|].
  rewrite rot_tv_v by apply RX.
  rewrite m3tv_tr, m3tr_mul, m3mul_v, <- (m3tv_tr (fatt (X t))), rot_tv_v by apply RX.
  generalize (vang v) (f t). intros. vdestruct. rcomp. vsplit; ring.
Qed.
Lemma acc_comp X t v a : (forall s, rigid (X s)) -> has_twist X t (v t) -> has_acc X v t a ->
  D3 (fun s => vlin (v s)) t (v3sub (vlin a) (v3cross (vang (v t)) (vlin (v t)))) /\
  D3 (fun s => vang (v s)) t (vang a).
Proof.
  intros RX T [A B]. split.
  - eapply D3_eq; [eapply twist_comp; eassumption|]. reflexivity.
  - eapply D3_eq; [eapply twist_comp; eassumption|]. cbv beta. rewrite v3cross_diag. apply v3sub_0_r.
Qed.
